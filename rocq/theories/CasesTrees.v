(** Concrete cases that meet the hypotheses of theorems about trees. *)
From Coq Require Import List Arith Reals Lia Lra ZArith Permutation.
From Verif Require Import Num Outcome Vec Orthtree AdaptiveTree GeometrySpec TreeSpec TreeGeometry BuildProofs
  TreeTheorems TreeTheorems2 TreeTheorems3 BalancedTree BalancedSpec BalancedTheorems ObjectTheorems.
Import ListNotations.

Lemma outside_case : length [0; 0]%R = 2 /\ (0 <= 2)%R /\ 1 < length [[-2; -3]; [-5; -4]]%R /\
  forall s, In s [[-2; -3]; [-5; -4]]%R -> forall j, j < 2 -> (nth j s 0 < nth j [0; 0] 0 - 2 / 2)%R.
Proof.
  split; [reflexivity|]. split; [lra|]. split; [cbn; lia|]. intros s [<-|[<-|[]]] j Hj; destruct j as [|[|j]]; cbn; lra || lia.
Qed.
Lemma above_case : length [0; 0]%R = 2 /\ (0 < 2)%R /\ 3 < 32 /\ length [1/2; 7]%R = 2 /\ 1 < 2 /\
  (forall i, i < 1 -> (nth i [0; 0] 0 - 2 / 2 <= nth i [1/2; 7] 0 < nth i [0; 0] 0 - 2 / 2 + 2)%R) /\
  (nth 1 [0; 0] 0 - 2 / 2 + 2 <= nth 1 [1/2; 7] 0 < nth 1 [0; 0] 0 - 2 / 2 + 2 / 2 ^ 3 * 4294967296)%R.
Proof.
  repeat (split; [reflexivity || lra || lia|]). split; [intros [|i] Hi; cbn; lra || lia|cbn; lra].
Qed.
Lemma below_case : length [1/2; -7]%R = 2 /\ 1 < 2 /\
  (forall i, i < 1 -> (nth i [0; 0] 0 - 2 / 2 <= nth i [1/2; -7] 0 < nth i [0; 0] 0 - 2 / 2 + 2)%R) /\ (nth 1 [1/2; -7] 0 < nth 1 [0; 0] 0 - 2 / 2)%R.
Proof. repeat (split; [reflexivity || lra || lia|]). split; [intros [|i] Hi; cbn; lra || lia|cbn; lra]. Qed.
Lemma one_sided_case : (forall s, In s [[1; 2]; [3; 1]]%R -> length s = 2) /\ [[1; 2]; [3; 1]]%R <> [] /\
  forall s, In s [[1; 2]; [3; 1]]%R -> forall j, j < 2 -> (0 < nth j s 0)%R.
Proof.
  split; [intros s [<-|[<-|[]]]; reflexivity|]. split; [discriminate|]. intros s [<-|[<-|[]]] j Hj; destruct j as [|[|j]]; cbn; lra || lia.
Qed.
Lemma lists_case : (forall s, In s five -> length s = 2) /\ exists fuel t ls, build_adaptive 2 (fun x => x) 1 fuel five = Ok t /\ all_lists 2 t = Ok ls.
Proof. split; [exact five_dim|exact (proj1 five_trees)]. Qed.
