(** Walking the response tree along a flatten path.
    Models bin/router/src/executor/utils/traverse.rs. *)
From Coq Require Import String List Bool.
From Verif Require Import StrOrd JsonModel.
Import ListNotations.
Local Open Scope string_scope.

(** [FlattenNodePathSegment], query_planner/planner/plan_nodes.rs:444-450 *)
Inductive fseg := FList | FField (name : string) | FTypes (conditions : list string).

(** [GraphQLErrorPathSegment], response/graphql_error.rs:236-241 *)
Inductive eseg := EStr (s : string) | EIdx (i : nat).

(** [PossibleTypes.map], introspection/schema.rs:131-134: the lookup of a type name. *)
Definition ptypes := string -> option (list string).

(** schema.rs:137-145 *)
Definition satisfies (pt : ptypes) (type_name cond : string) : bool :=
  String.eqb type_name cond
  || match pt cond with
     | Some ts => existsb (String.eqb type_name) ts
     | None => false
     end.

(** traverse.rs:11-19 *)
Definition satisfies_any (pt : ptypes) (type_name : string) (conds : list string) : bool :=
  existsb (satisfies pt type_name) conds.

(** [obj.binary_search_by_key("__typename")…as_str()], traverse.rs:87-90, 166-169 *)
Definition typename_of (o : list (string * value)) : option string :=
  match get "__typename" o with Some (VStr s) => Some s | _ => None end.

(** [maybe_type_name.is_none_or(…)], traverse.rs:92-98, 171-173 *)
Definition cast_ok (pt : ptypes) (o : list (string * value)) (conds : list string) : bool :=
  match typename_of o with None => true | Some t => satisfies_any pt t conds end.

(** [traverse_and_callback], traverse.rs:127-186: the values the callback is called on, in
    order. *)
Fixpoint visit (pt : ptypes) (p : list fseg) {struct p} : value -> list value :=
  match p with
  | [] => fun v => match v with VArr l => l | _ => [v] end
  | FList :: p' => fun v => match v with VArr l => flat_map (visit pt p') l | _ => [] end
  | FField f :: p' => fun v =>
      match v with
      | VObj o => match get f o with Some w => visit pt p' w | None => [] end
      | _ => []
      end
  | FTypes ts :: p' =>
      fix cast (v : value) : list value :=
        match v with
        | VObj o => if cast_ok pt o ts then visit pt p' v else []
        | VArr l => flat_map cast l
        | _ => []
        end
  end.

Section Mut.
  Variable St : Type.
  (** the callback: the new target and the captured state *)
  Variable cb : value -> option (list eseg) -> St -> value * St.

  (** [for (index, item) in arr.iter_mut().enumerate()] *)
  Definition each (f : nat -> value -> St -> value * St) :=
    fix each (i : nat) (l : list value) (s : St) {struct l} : list value * St :=
      match l with
      | [] => ([], s)
      | x :: l' =>
          let '(x', s1) := f i x s in
          let '(r, s2) := each (S i) l' s1 in
          (x' :: r, s2)
      end.

  (** the slot [map.get_mut(idx)] found by binary search *)
  Fixpoint put (k : string) (w : value) (o : list (string * value)) : list (string * value) :=
    match o with
    | [] => []
    | (k', v) :: o' => if String.eqb k k' then (k', w) :: o' else (k', v) :: put k w o'
    end.

  (** [error_path.as_ref().map(|p| p.concat(..))] *)
  Definition concat_seg (e : option (list eseg)) (x : eseg) : option (list eseg) :=
    match e with Some l => Some (l ++ [x])%list | None => None end.

  (** [traverse_and_callback_mut], traverse.rs:21-125 *)
  Fixpoint visit_mut (pt : ptypes) (p : list fseg) {struct p}
    : value -> option (list eseg) -> St -> value * St :=
    match p with
    | [] => fun v e s =>
        match v with
        | VArr l => let '(l', s') := each (fun i x s => cb x (concat_seg e (EIdx i)) s) 0 l s in
                    (VArr l', s')
        | _ => cb v e s
        end
    | FList :: p' => fun v e s =>
        match v with
        | VArr l => let '(l', s') := each (fun i x s => visit_mut pt p' x (concat_seg e (EIdx i)) s) 0 l s in
                    (VArr l', s')
        | _ => (v, s)
        end
    | FField f :: p' => fun v e s =>
        match v with
        | VObj o =>
            match get f o with
            | Some w => let '(w', s') := visit_mut pt p' w (concat_seg e (EStr f)) s in
                        (VObj (put f w' o), s')
            | None => (v, s)
            end
        | _ => (v, s)
        end
    | FTypes ts :: p' =>
        fix cast (v : value) (e : option (list eseg)) (s : St) {struct v} : value * St :=
          match v with
          | VObj o => if cast_ok pt o ts then visit_mut pt p' v e s else (v, s)
          | VArr l => let '(l', s') := each (fun i x s => cast x (concat_seg e (EIdx i)) s) 0 l s in
                      (VArr l', s')
          | _ => (v, s)
          end
    end.
End Mut.
