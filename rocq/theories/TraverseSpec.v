(** Which positions of a response tree a flatten path denotes. *)
From Coq Require Import String List Bool Arith.
From Verif Require Import StrOrd JsonModel MergeSpec TraverseModel.
Import ListNotations.
Local Open Scope string_scope.

(** The object may have one of the listed types: its type is unknown, or it is one of them
    or a member of one of them. *)
Inductive may_be (pt : ptypes) (o : list (string * value)) (ts : list string) : Prop :=
| mb_unknown : (forall s, get "__typename" o <> Some (VStr s)) -> may_be pt o ts
| mb_known t c : get "__typename" o = Some (VStr t) -> In c ts ->
                 (t = c \/ exists ms, pt c = Some ms /\ In t ms) -> may_be pt o ts.

(** [selects pt p v q x]: path [p] denotes, in tree [v], the position [q], which holds [x].
    A path that ends at a list denotes the elements of the list; a type condition looks
    through lists. *)
Inductive selects (pt : ptypes) : list fseg -> value -> list seg -> value -> Prop :=
| sel_here v : (forall l, v <> VArr l) -> selects pt [] v [] v
| sel_items l i x : nth_error l i = Some x -> selects pt [] (VArr l) [Idx i] x
| sel_list p l i x q y : nth_error l i = Some x -> selects pt p x q y ->
    selects pt (FList :: p) (VArr l) (Idx i :: q) y
| sel_field f p o w q y : get f o = Some w -> selects pt p w q y ->
    selects pt (FField f :: p) (VObj o) (Key f :: q) y
| sel_cast ts p o q y : may_be pt o ts -> selects pt p (VObj o) q y ->
    selects pt (FTypes ts :: p) (VObj o) q y
| sel_cast_list ts p l i x q y : nth_error l i = Some x -> selects pt (FTypes ts :: p) x q y ->
    selects pt (FTypes ts :: p) (VArr l) (Idx i :: q) y.

(** Document order of positions.  Two positions in this order are independent: neither lies
    inside the other. *)
Inductive before : list seg -> list seg -> Prop :=
| before_idx i j q q' : i < j -> before (Idx i :: q) (Idx j :: q')
| before_in s q q' : before q q' -> before (s :: q) (s :: q').

(** Replacing the value at a position. *)
Fixpoint set_nth (i : nat) (x : value) (l : list value) : list value :=
  match l, i with
  | [], _ => []
  | _ :: l', 0 => x :: l'
  | y :: l', S i' => y :: set_nth i' x l'
  end.
Fixpoint set_key (k : string) (x : value) (o : list (string * value)) : list (string * value) :=
  match o with
  | [] => []
  | (k', y) :: o' => if String.eqb k k' then (k', x) :: o' else (k', y) :: set_key k x o'
  end.
Fixpoint replace (q : list seg) (w v : value) : value :=
  match q with
  | [] => w
  | Key k :: q' => match v with
                   | VObj o => match get k o with Some c => VObj (set_key k (replace q' w c) o) | None => v end
                   | _ => v
                   end
  | Idx i :: q' => match v with
                   | VArr l => match nth_error l i with Some c => VArr (set_nth i (replace q' w c) l) | None => v end
                   | _ => v
                   end
  end.
Definition replace_all (us : list (list seg * value)) (v : value) : value :=
  fold_left (fun v u => replace (fst u) (snd u) v) us v.

(** A position as written in a GraphQL error path. *)
Definition epath (q : list seg) : list eseg :=
  map (fun s => match s with Key k => EStr k | Idx i => EIdx i end) q.

(** Calling [cb] once on each target in turn. *)
Fixpoint call_each {St} (cb : value -> option (list eseg) -> St -> value * St)
  (path : list seg -> option (list eseg)) (ts : list (list seg * value)) (s : St)
  : list (list seg * value) * St :=
  match ts with
  | [] => ([], s)
  | (q, x) :: ts' =>
      let '(w, s1) := cb x (path q) s in
      let '(r, s2) := call_each cb path ts' s1 in
      ((q, w) :: r, s2)
  end.
