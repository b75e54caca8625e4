(** What callers of a pooled connection may rely on. *)
From Coq Require Import String List NArith Bool Arith.
From Verif Require Import OwnerModel.
Import ListNotations.
Local Open Scope string_scope.
Local Open Scope list_scope.

Definition answered (o : owner) (w : nat) (a : answer) : Prop := In (w, a) (answers o).
Definition came (o : owner) (w : nat) : Prop := w < callers o.
Definition left (o : owner) (w : nat) : Prop := In w (gone o).
(** Still on its way *)
Definition underway (o : owner) (w : nat) : Prop := In w (waiting o) \/ In w (holding o) \/ In w (queue o) \/ current o = Some w.

(** Read off the actions: who committed a command, when the time is, and when an operation last ended *)
Definition commits (tr : list action) : list nat := flat_map (fun a => match a with Commit w => [w] | _ => [] end) tr.
Definition passes (a : action) : N := match a with Wait d => d | _ => 0%N end.
Definition time (tr : list action) : N := fold_right (fun a t => (passes a + t)%N) 0%N tr.
Definition ended_at (tr : list action) (t : N) : Prop := exists before w after, tr = before ++ Finish w :: after /\ time before = t.
Inductive subsequence {A} : list A -> list A -> Prop :=
| sub_nil : subsequence [] []
| sub_skip x l l' : subsequence l l' -> subsequence l (x :: l')
| sub_keep x l l' : subsequence l l' -> subsequence (x :: l) (x :: l').
(** The callers whose operations were started, in order *)
Definition started (o : owner) : list nat := rev (flat_map (fun x => match snd x with Started => [fst x] | _ => [] end) (answers o)).
Definition aborts (a : action) : Prop := match a with Abort => True | _ => False end.
(** What still happens by itself once the connection is shut down *)
Definition settles (a : action) : Prop := match a with Commit _ | Drain | End | Refuse _ => True | _ => False end.
