(** Independent specification vocabulary for merging (C01, C02). *)
From Coq Require Import String List NArith ZArith.
From Verif Require Import StrOrd JsonModel.
Import ListNotations.

(** A position in a JSON tree. *)
Inductive seg := Key (k : string) | Idx (i : nat).

Fixpoint at_path (p : list seg) (v : value) : option value :=
  match p with
  | [] => Some v
  | Key k :: p' => match v with
                   | VObj o => match get k o with Some w => at_path p' w | None => None end
                   | _ => None
                   end
  | Idx i :: p' => match v with
                   | VArr l => match nth_error l i with Some w => at_path p' w | None => None end
                   | _ => None
                   end
  end.

(** A scalar datum: neither null nor a container. *)
Definition scalar (v : value) : Prop :=
  match v with VNull | VArr _ | VObj _ => False | _ => True end.

(** "The tree says that at position p there is the scalar x". *)
Definition says (v : value) (p : list seg) (x : value) : Prop :=
  scalar x /\ at_path p v = Some x.

(** Two answers do not contradict each other: where both say something non-null they
    have the same kind, the same scalar, or the same list length, recursively. *)
Inductive agree : value -> value -> Prop :=
| agree_null_l v : agree VNull v
| agree_null_r v : agree v VNull
| agree_scalar x : scalar x -> agree x x
| agree_arr l1 l2 : Forall2 agree l1 l2 -> agree (VArr l1) (VArr l2)
| agree_obj o1 o2 :
    (forall k a b, get k o1 = Some a -> get k o2 = Some b -> agree a b) ->
    agree (VObj o1) (VObj o2).

(** The tree says nothing at or above position p: walking along p one meets a null or a
    missing key / index before or at p, and never a value of another kind. *)
Inductive silent : list seg -> value -> Prop :=
| silent_null p : silent p VNull
| silent_key k p o : (forall w, get k o = Some w -> silent p w) -> silent (Key k :: p) (VObj o)
| silent_idx i p l : (forall w, nth_error l i = Some w -> silent p w) -> silent (Idx i :: p) (VArr l).
