(** Parallel loops.

    An OpenMP [parallel for] runs its iterations on several threads.  An iteration is modelled by the list of its atomic
    effects in program order; a run of the loop is any interleaving of these lists.  Every run on any number of threads
    with any chunking is among them (a thread that executes several iterations one after the other gives a particular
    interleaving). *)
From Coq Require Import List.
Import ListNotations.

Inductive interleaving {A : Type} : list (list A) -> list A -> Prop :=
| il_done : forall its, (forall it, In it its -> it = []) -> interleaving its []
| il_step : forall before a it after run,
    interleaving (before ++ it :: after) run -> interleaving (before ++ (a :: it) :: after) (a :: run).
