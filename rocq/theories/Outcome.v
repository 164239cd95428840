From Coq Require Import List.
(** Outcomes of a C++ call.  Undefined behaviour, a failed [assert] and a thrown exception are distinct outcomes;
    [OutOfFuel] marks a loop that has not finished within the given number of iterations. *)
Inductive outcome (A : Type) : Type :=
| Ok (a : A)
| Throw          (* a C++ exception leaves the call *)
| Abort          (* a failed assert *)
| UB             (* undefined behaviour, e.g. out-of-range access or conversion *)
| NonFinite      (* a floating point operation produced an infinity or a NaN, e.g. 1./0 or log 0 *)
| OutOfFuel.     (* the modelled loop did not finish within its fuel *)
Arguments Ok {A} a.
Arguments Throw {A}.
Arguments Abort {A}.
Arguments UB {A}.
Arguments NonFinite {A}.
Arguments OutOfFuel {A}.

Definition bind {A B} (x : outcome A) (f : A -> outcome B) : outcome B :=
  match x with
  | Ok a => f a
  | Throw => Throw
  | Abort => Abort
  | UB => UB
  | NonFinite => NonFinite
  | OutOfFuel => OutOfFuel
  end.
Declare Scope outcome_scope.
Delimit Scope outcome_scope with outcome.
Notation "'do' x <- e1 ;; e2" := (bind e1 (fun x => e2))
  (at level 200, x name, e1 at level 100, e2 at level 200, right associativity) : outcome_scope.

Definition of_option {A} (o : option A) : outcome A :=
  match o with Some a => Ok a | None => UB end.

Definition omap {A B} (f : A -> B) (x : outcome A) : outcome B := bind x (fun a => Ok (f a)).

(** A loop over a list whose body may fail. *)
Fixpoint ofold {A S} (f : S -> A -> outcome S) (l : list A) (s : S) : outcome S :=
  match l with
  | nil => Ok s
  | cons a r => bind (f s a) (fun s' => ofold f r s')
  end.

Lemma ofold_app {A S} (f : S -> A -> outcome S) l1 l2 s :
  ofold f (l1 ++ l2) s = bind (ofold f l1 s) (fun s' => ofold f l2 s').
Proof.
  revert s; induction l1 as [|a l1 IH]; intros s; simpl; [reflexivity|].
  destruct (f s a); simpl; auto.
Qed.

(** If no body fails, the loop is a plain fold. *)
Lemma ofold_ok {A S} (f : S -> A -> outcome S) (g : S -> A -> S) l s :
  (forall s a, f s a = Ok (g s a)) -> ofold f l s = Ok (List.fold_left g l s).
Proof.
  intros H; revert s; induction l as [|a l IH]; intros s; simpl; [reflexivity|].
  rewrite H; simpl; apply IH.
Qed.

(** Apply a fallible function to each element, left to right. *)
Fixpoint omapM {A B} (f : A -> outcome B) (l : list A) : outcome (list B) :=
  match l with
  | nil => Ok nil
  | cons a r => bind (f a) (fun b => bind (omapM f r) (fun bs => Ok (cons b bs)))
  end.
