(** Breadth-first traversal visits the nodes level by level. *)
From Coq Require Import List Arith Lia.
From Verif Require Import Num Outcome Orthtree.
Import ListNotations.

Section Static.
Context {P St : Type}.
Variable ch : P -> list P.
Variable process : P -> St -> outcome St.

Fixpoint bfs_level (k : nat) (q : list P) : list P :=
  match k with O => q | S k' => bfs_level k' (flat_map ch q) end.

Notation run ps st := (ofold (fun s p => process p s) ps st).

Lemma bfs_prefix fuel q1 q2 st : length q1 <= fuel ->
  bfs (fun _ => ch) process fuel (q1 ++ q2) st
  = bind (run q1 st) (fun st' => bfs (fun _ => ch) process (fuel - length q1) (q2 ++ flat_map ch q1) st').
Proof.
  revert fuel q2 st; induction q1 as [|p q1 IH]; intros fuel q2 st H; cbn [length app ofold flat_map] in *.
  - cbn [bind]. rewrite Nat.sub_0_r, app_nil_r. reflexivity.
  - destruct fuel as [|fuel]; [lia|]. cbn [bfs]. destruct (process p st) as [st'| | | | |]; cbn [bind]; try reflexivity.
    rewrite <- app_assoc. rewrite IH by lia. replace (S fuel - S (length q1)) with (fuel - length q1) by lia.
    rewrite <- app_assoc. reflexivity.
Qed.

Lemma bfs_levels n fuel q st :
  bfs_level n q = [] ->
  length (flat_map (fun k => bfs_level k q) (seq 0 n)) <= fuel ->
  bfs (fun _ => ch) process fuel q st = run (flat_map (fun k => bfs_level k q) (seq 0 n)) st.
Proof.
  revert fuel q st; induction n as [|n IH]; intros fuel q st E H.
  - cbn [bfs_level] in E. subst q. cbn. destruct fuel; reflexivity.
  - cbn [seq flat_map] in *. rewrite app_length in H. cbn [bfs_level] in E, H |- *.
    assert (S1 : flat_map (fun k => bfs_level k q) (seq 1 n) = flat_map (fun k => bfs_level k (flat_map ch q)) (seq 0 n)).
    { rewrite <- seq_shift. rewrite (flat_map_concat_map _ (map S _)), map_map, <- flat_map_concat_map. reflexivity. }
    rewrite S1 in *. rewrite <- (app_nil_r q) at 1. rewrite bfs_prefix by lia. cbn [app].
    rewrite ofold_app. destruct (run q st) as [st'| | | | |]; cbn [bind]; try reflexivity.
    apply IH; [assumption|]. lia.
Qed.

Lemma bfs_level_S n q : bfs_level (S n) q = flat_map ch (bfs_level n q).
Proof. revert q; induction n; intros q; [reflexivity|]. cbn [bfs_level] in *. apply IHn. Qed.

End Static.
