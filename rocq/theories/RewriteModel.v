(** Key renames and value setters applied to subgraph data.
    Models bin/router/src/executor/execution/rewrites.rs. *)
From Coq Require Import String List Bool Arith.
From Verif Require Import StrOrd JsonModel TraverseModel.
Import ListNotations.
Local Open Scope string_scope.

(** [FetchNodePathSegment], query_planner/planner/plan_nodes.rs:426-430 *)
Inductive rseg := RKey (k : string) | RTypes (conditions : list string).

(** [KeyRenamer] plan_nodes.rs:419-424 and [ValueSetter] plan_nodes.rs:549-553 *)
Inductive rewrite :=
| KeyRenamer (path : list rseg) (rename_key_to : string)
| ValueSetter (path : list rseg) (set_value_to : string).

(** Running a step on every element; [None] is a panic. *)
Definition map_opt {A} (f : A -> option A) :=
  fix map_opt (l : list A) : option (list A) :=
    match l with
    | [] => Some []
    | x :: l' => match f x, map_opt l' with
                 | Some y, Some r => Some (y :: r)
                 | _, _ => None
                 end
    end.

(** [obj.iter_mut().find(|(key, _)| key == field_name)] then [*key = rename_key_to] *)
Fixpoint rename_first (k to : string) (o : list (string * value)) : list (string * value) :=
  match o with
  | [] => []
  | (k', v) :: o' => if String.eqb k' k then (to, v) :: o' else (k', v) :: rename_first k to o'
  end.

(** [type_name.is_none_or(entity_satisfies_any_type_condition)], rewrites.rs:62-72, 119-129;
    the [find] is the first entry with that key. *)
Definition rcast_ok (pt : ptypes) (o : list (string * value)) (ts : list string) : bool :=
  cast_ok pt o ts.

(** [KeyRenamer::apply_path], rewrites.rs:49-96.  [&path[0]] panics on an empty path. *)
Fixpoint rename (pt : ptypes) (to : string) (p : list rseg) {struct p} : value -> option value :=
  match p with
  | [] => fun _ => None
  | RTypes ts :: p' =>
      fix go (v : value) : option value :=
        match v with
        | VArr l => match map_opt go l with Some l' => Some (VArr l') | None => None end
        | VObj o => if rcast_ok pt o ts then rename pt to p' v else Some v
        | _ => Some v
        end
  | RKey f :: p' =>
      fix go (v : value) : option value :=
        match v with
        | VArr l => match map_opt go l with Some l' => Some (VArr l') | None => None end
        | VObj o =>
            match p' with
            | [] => if String.eqb f to then Some v else Some (VObj (rename_first f to o))
            | _ :: _ =>
                match get f o with
                | Some w => match rename pt to p' w with
                            | Some w' => Some (VObj (put f w' o))
                            | None => None
                            end
                | None => Some v
                end
            end
        | _ => Some v
        end
  end.

(** [ValueSetter::apply_path], rewrites.rs:104-151 *)
Fixpoint set_value (pt : ptypes) (x : string) (p : list rseg) {struct p} : value -> value :=
  match p with
  | [] => fun _ => VStr x
  | RTypes ts :: p' =>
      fix go (v : value) : value :=
        match v with
        | VArr l => VArr (map go l)
        | VObj o => if rcast_ok pt o ts then set_value pt x p' v else v
        | _ => v
        end
  | RKey f :: p' =>
      fix go (v : value) : value :=
        match v with
        | VArr l => VArr (map go l)
        | VObj o => match get f o with
                    | Some w => VObj (put f (set_value pt x p' w) o)
                    | None => v
                    end
        | _ => v
        end
  end.

(** [FetchRewriteExt::rewrite], rewrites.rs:16-23, and the loops over a list of rewrites
    (execution/plan.rs:1008-1016, 1159-1166, 1205-1212). *)
Definition apply_rewrite (pt : ptypes) (r : rewrite) (v : value) : option value :=
  match r with
  | KeyRenamer p to => rename pt to p v
  | ValueSetter p x => Some (set_value pt x p v)
  end.
Fixpoint apply_rewrites (pt : ptypes) (rs : list rewrite) (v : value) : option value :=
  match rs with
  | [] => Some v
  | r :: rs' => match apply_rewrite pt r v with Some v' => apply_rewrites pt rs' v' | None => None end
  end.

(** [slice::binary_search_by] of the Rust standard library: the loop halves [size], keeping
    [base] at the last probe that was not greater.  [fuel] is the length of the slice, which
    the loop never exhausts.  Used only to show what an unsorted object costs. *)
Fixpoint bsearch_loop {A} (fuel : nat) (l : list (string * A)) (k : string) (base size : nat) : nat :=
  match fuel with
  | 0 => base
  | S fuel' =>
      if Nat.leb size 1 then base
      else
        let half := Nat.div size 2 in
        let mid := base + half in
        let base' := match nth_error l mid with
                     | Some (k', _) => match String.compare k' k with Gt => base | _ => mid end
                     | None => base
                     end in
        bsearch_loop fuel' l k base' (size - half)
  end.
Definition bsearch {A} (k : string) (l : list (string * A)) : option A :=
  match nth_error l (bsearch_loop (length l) l k 0 (length l)) with
  | Some (k', v) => if String.eqb k' k then Some v else None
  | None => None
  end.
