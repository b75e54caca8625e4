(** The validation rule on overlapping fields.
    Models lib/graphql-tools/src/validation/rules/overlapping_fields_can_be_merged.rs, [Value::compare] of
    ast/ext.rs:242-272, and the walk of ast/operation_visitor.rs over selection sets.
    Positions and the wording of messages are left out. *)
From Coq Require Import String List NArith ZArith Bool.
From Verif Require Import Ast NormModel.
Import ListNotations.
Local Open Scope string_scope.
Local Open Scope list_scope.

(** schema::TypeDefinition, as far as the rule looks *)
Inductive kind := KObject | KInterface | KUnion | KLeaf | KInput.
Record tdef := mktdef { t_name : string; t_kind : kind; t_fields : list (string * tnode) }.
(** [type_by_name], ast/ext.rs:73-83, and [field_by_name], ast/ext.rs:21-31 *)
Fixpoint type_by_name (sch : list tdef) (n : string) : option tdef :=
  match sch with
  | [] => None
  | t :: sch' => if String.eqb (t_name t) n then Some t else type_by_name sch' n
  end.
Fixpoint kfind (n : string) (l : list (string * tnode)) : option tnode :=
  match l with [] => None | (k, t) :: l' => if String.eqb k n then Some t else kfind n l' end.
Definition field_by_name (t : tdef) (n : string) : option tnode :=
  match t_kind t with KObject | KInterface => kfind n (t_fields t) | _ => None end.
Fixpoint inner_type (t : tnode) : string :=
  match t with TNamed n => n | TList t => inner_type t | TNonNull t => inner_type t end.
Definition is_object (t : tdef) : bool := match t_kind t with KObject => true | _ => false end.
Definition is_leaf (t : tdef) : bool := match t_kind t with KLeaf => true | _ => false end.

(** A document: fragments and operations, with the name of the type they start from *)
Inductive definition := Frag (name type : string) (set : list nsel) | Oper (root : option string) (set : list nsel).

Record field := mkfield { f_alias : option string; f_name : string; f_args : list (string * gvalue); f_sub : list nsel }.
Definition response_name (f : field) : string := match f_alias f with Some a => a | None => f_name f end.
(** [AstAndDef], lines 88-93 *)
Record entry := mkentry { e_parent : option tdef; e_field : field; e_def : option tnode }.
(** [OrderedMap], lines 105-161 *)
Definition field_map : Type := list (string * list entry).
Fixpoint push (n : string) (e : entry) (m : field_map) : field_map :=
  match m with
  | [] => [(n, [e])]
  | (k, l) :: m' => if String.eqb k n then (k, l ++ [e]) :: m' else (k, l) :: push n e m'
  end.
Fixpoint map_get (n : string) (m : field_map) : option (list entry) :=
  match m with [] => None | (k, l) :: m' => if String.eqb k n then Some l else map_get n m' end.

Definition smem (n : string) (l : list string) : bool := existsb (String.eqb n) l.

(** [collect_fields_and_fragment_names], lines 774-826 *)
Fixpoint collect_one (sch : list tdef) (parent : option tdef) (x : nsel) (acc : field_map * list string) : field_map * list string :=
  match x with
  | NField al n args _ sub =>
      let f := mkfield al n args sub in
      let def := match parent with Some t => field_by_name t n | None => None end in
      (push (response_name f) (mkentry parent f def) (fst acc), snd acc)
  | NSpread n _ => if smem n (snd acc) then acc else (fst acc, snd acc ++ [n])
  | NInline tc _ sub =>
      let ty := match (match tc with Some c => type_by_name sch c | None => None end) with
                | Some t => Some t
                | None => parent
                end in
      (fix go (l : list nsel) (acc : field_map * list string) :=
         match l with [] => acc | y :: l' => go l' (collect_one sch ty y acc) end) sub acc
  end.
Fixpoint collect (sch : list tdef) (parent : option tdef) (l : list nsel) (acc : field_map * list string) : field_map * list string :=
  match l with [] => acc | y :: l' => collect sch parent l' (collect_one sch parent y acc) end.
Definition fields_and_fragments (sch : list tdef) (parent : option tdef) (l : list nsel) : field_map * list string :=
  collect sch parent l ([], []).

(** [Value::compare], ast/ext.rs:243-272; floats are equal as numbers: zeros of either sign are *)
Definition is_zero (b : N) : bool := (b =? 0)%N || (b =? 9223372036854775808)%N.
Definition float_eq (a b : N) : bool := (a =? b)%N || (is_zero a && is_zero b).
Fixpoint compare (a b : gvalue) : bool :=
  match a, b with
  | GNull, GNull => true
  | GBool x, GBool y => Bool.eqb x y
  | GInt x, GInt y => Z.eqb x y
  | GFloat x, GFloat y => float_eq x y
  | GStr x, GStr y => String.eqb x y
  | GEnum x, GEnum y => String.eqb x y
  | GList x, GList y =>
      (fix go (x y : list gvalue) : bool :=
         match x, y with u :: x', v :: y' => compare u v && go x' y' | _, _ => true end) x y
  | GObj x, GObj y =>
      if Nat.eqb (List.length x) (List.length y)
      then (fix go (x : list (string * gvalue)) (rest : list (string * gvalue)) : bool :=
              match x with
              | [] => true
              | (k, v) :: x' =>
                  match (fix find (before rest : list (string * gvalue)) : option (list (string * gvalue)) :=
                           match rest with
                           | [] => None
                           | (k', w) :: rest' => if String.eqb k k' && compare v w then Some (before ++ rest') else find (before ++ [(k', w)]) rest'
                           end) [] rest with
                  | Some rest' => go x' rest'
                  | None => false
                  end
              end) x y
      else false
  | GVar x, GVar y => String.eqb x y
  | _, _ => false
  end.
(** [is_same_arguments], lines 296-308 *)
Fixpoint arg_get (n : string) (l : list (string * gvalue)) : option gvalue :=
  match l with [] => None | (k, v) :: l' => if String.eqb n k then Some v else arg_get n l' end.
Definition same_arguments (a b : list (string * gvalue)) : bool :=
  Nat.eqb (List.length a) (List.length b)
  && forallb (fun kv => match arg_get (fst kv) b with Some w => compare (snd kv) w | None => false end) a.

(** [is_type_conflict], lines 313-348 *)
Definition leaf_named (sch : list tdef) (n : string) : bool :=
  match type_by_name sch n with Some t => is_leaf t | None => false end.
Fixpoint type_conflict (sch : list tdef) (t1 t2 : tnode) : bool :=
  match t1, t2 with
  | TList a, TList b => type_conflict sch a b
  | TList _, _ => true
  | _, TList _ => true
  | TNonNull a, TNonNull b => type_conflict sch a b
  | TNonNull _, _ => true
  | _, TNonNull _ => true
  | TNamed a, TNamed b => if leaf_named sch a || leaf_named sch b then negb (String.eqb a b) else false
  end.

Inductive conflict := Conflict (name : string) (r : reason)
with reason := Differ (a b : string) | Arguments | Types (a b : tnode) | Nested (l : list conflict).

(** [PairSet], lines 101-103 and 173-197; the latest insertion counts *)
Definition pair_set : Type := list (string * string * bool).
Fixpoint pair_get (a b : string) (s : pair_set) : option bool :=
  match s with
  | [] => None
  | (x, y, m) :: s' => if String.eqb x a && String.eqb y b then Some m else pair_get a b s'
  end.
Definition pair_contains (a b : string) (mutex : bool) (s : pair_set) : bool :=
  match pair_get a b s with Some r => if mutex then true else negb r | None => false end.
Definition pair_insert (a b : string) (mutex : bool) (s : pair_set) : pair_set := (b, a, mutex) :: (a, b, mutex) :: s.

Record state := mkstate { visited : list string; compared : pair_set }.
(** [None] is a recursion that has not ended within the fuel *)
Definition outcome : Type := option (list conflict * state).
Fixpoint each {A} (k : A -> state -> outcome) (l : list A) (st : state) : outcome :=
  match l with
  | [] => Some ([], st)
  | x :: l' =>
      match k x st with
      | None => None
      | Some (c, st1) => match each k l' st1 with None => None | Some (c', st2) => Some (c ++ c', st2) end
      end
  end.
Definition andthen (a b : state -> outcome) (st : state) : outcome :=
  match a st with
  | None => None
  | Some (c, st1) => match b st1 with None => None | Some (c', st2) => Some (c ++ c', st2) end
  end.

(** The pairs of [collect_conflicts_between], lines 717-749, and of [collect_conflicts_within], lines 264-294 *)
Definition pairs (m1 m2 : field_map) : list (string * entry * entry) :=
  flat_map (fun x => match map_get (fst x) m2 with
                     | Some l2 => flat_map (fun e1 => map (fun e2 => (fst x, e1, e2)) l2) (snd x)
                     | None => []
                     end) m1.
Fixpoint later {A} (l : list A) : list (A * A) :=
  match l with [] => [] | x :: l' => map (fun y => (x, y)) l' ++ later l' end.
Definition pairs_within (m : field_map) : list (string * entry * entry) :=
  flat_map (fun x => map (fun p => (fst x, fst p, snd p)) (later (snd x))) m.

Section Rule.
  Variable sch : list tdef.
  Variable doc : list definition.

  (** [named_fragments], lines 836-840: a later definition replaces an earlier one *)
  Fixpoint frag_find (n : string) (l : list definition) (found : option (string * list nsel)) : option (string * list nsel) :=
    match l with
    | [] => found
    | Frag k tc set :: l' => frag_find n l' (if String.eqb k n then Some (tc, set) else found)
    | Oper _ _ :: l' => frag_find n l' found
    end.
  Definition frag_get (n : string) : option (string * list nsel) := frag_find n doc None.

  Definition exclusive (m : bool) (p1 p2 : option tdef) : bool :=
    if m then true
    else match p1, p2 with
         | Some t1, Some t2 => negb (String.eqb (t_name t1) (t_name t2)) && is_object t1 && is_object t2
         | _, _ => false
         end.
  Definition type_of_def (d : option tnode) : option tdef :=
    match d with Some t => type_by_name sch (inner_type t) | None => None end.

  (** [find_conflict], lines 352-464; [subfield_conflicts], lines 466-491 *)
  Fixpoint find_conflict (fuel : nat) (name : string) (e1 e2 : entry) (m : bool) (st : state) : outcome :=
    match fuel with
    | O => None
    | S fuel =>
        let f1 := e_field e1 in
        let f2 := e_field e2 in
        let m' := exclusive m (e_parent e1) (e_parent e2) in
        if negb m' && negb (String.eqb (f_name f1) (f_name f2)) then Some ([Conflict name (Differ (f_name f1) (f_name f2))], st)
        else if negb m' && negb (same_arguments (f_args f1) (f_args f2)) then Some ([Conflict name Arguments], st)
        else
          match (match e_def e1, e_def e2 with Some t1, Some t2 => if type_conflict sch t1 t2 then Some (t1, t2) else None | _, _ => None end) with
          | Some (t1, t2) => Some ([Conflict name (Types t1 t2)], st)
          | None =>
              match f_sub f1, f_sub f2 with
              | [], _ => Some ([], st)
              | _, [] => Some ([], st)
              | _, _ =>
                  match between_sets fuel m' (type_of_def (e_def e1)) (f_sub f1) (type_of_def (e_def e2)) (f_sub f2) st with
                  | None => None
                  | Some ([], st') => Some ([], st')
                  | Some (l, st') => Some ([Conflict name (Nested l)], st')
                  end
              end
          end
    end
  (** [find_conflicts_between_sub_selection_sets], lines 497-569 *)
  with between_sets (fuel : nat) (m : bool) (p1 : option tdef) (s1 : list nsel) (p2 : option tdef) (s2 : list nsel) (st : state) : outcome :=
    match fuel with
    | O => None
    | S fuel =>
        let '(m1, n1) := fields_and_fragments sch p1 s1 in
        let '(m2, n2) := fields_and_fragments sch p2 s2 in
        andthen (each (fun p => let '(n, e1, e2) := p in find_conflict fuel n e1 e2 m) (pairs m1 m2))
          (andthen (each (fun b => fields_fragment fuel m1 b m) n2)
            (andthen (each (fun a => fields_fragment fuel m2 a m) n1)
              (each (fun a => each (fun b => fragment_fragment fuel a b m) n2) n1))) st
    end
  (** [collect_conflicts_between_fields_and_fragment], lines 571-617 *)
  with fields_fragment (fuel : nat) (m1 : field_map) (n : string) (m : bool) (st : state) : outcome :=
    match fuel with
    | O => None
    | S fuel =>
        match frag_get n with
        | None => Some ([], st)
        | Some (tc, set) =>
            let '(m2, n2) := fields_and_fragments sch (type_by_name sch tc) set in
            if smem n n2 then Some ([], st)
            else
              andthen (each (fun p => let '(k, e1, e2) := p in find_conflict fuel k e1 e2 m) (pairs m1 m2))
                (fun st =>
                   (fix go (l : list string) (st : state) : outcome :=
                      match l with
                      | [] => Some ([], st)
                      | b :: l' =>
                          if smem b (visited st) then Some ([], st)
                          else andthen (fields_fragment fuel m1 b m) (go l') (mkstate (b :: visited st) (compared st))
                      end) n2 st) st
        end
    end
  (** [collect_conflicts_between_fragments], lines 621-697 *)
  with fragment_fragment (fuel : nat) (a b : string) (m : bool) (st : state) : outcome :=
    match fuel with
    | O => None
    | S fuel =>
        if String.eqb a b then Some ([], st)
        else if pair_contains a b m (compared st) then Some ([], st)
        else
          let st := mkstate (visited st) (pair_insert a b m (compared st)) in
          match frag_get a, frag_get b with
          | Some (tc1, s1), Some (tc2, s2) =>
              let '(m1, n1) := fields_and_fragments sch (type_by_name sch tc1) s1 in
              let '(m2, n2) := fields_and_fragments sch (type_by_name sch tc2) s2 in
              andthen (each (fun p => let '(n, e1, e2) := p in find_conflict fuel n e1 e2 m) (pairs m1 m2))
                (andthen (each (fun b' => fragment_fragment fuel a b' m) n2)
                  (each (fun a' => fragment_fragment fuel a' b m) n1)) st
          | _, _ => Some ([], st)
          end
    end.

  (** [find_conflicts_within_selection_set], lines 216-261, on a fresh list of visited fragments *)
  Fixpoint within_fragments (fuel : nat) (m1 : field_map) (names : list string) (st : state) : outcome :=
    match names with
    | [] => Some ([], st)
    | a :: names' =>
        andthen (fields_fragment fuel m1 a false)
          (andthen (each (fun b => fragment_fragment fuel a b false) names') (within_fragments fuel m1 names')) st
    end.
  Definition within_set (fuel : nat) (x : option tdef * list nsel) (st : state) : outcome :=
    let '(m1, n1) := fields_and_fragments sch (fst x) (snd x) in
    andthen (each (fun p => let '(n, e1, e2) := p in find_conflict fuel n e1 e2 false) (pairs_within m1))
      (within_fragments fuel m1 n1) (mkstate [] (compared st)).

  (** [visit_document], ast/operation_visitor.rs:156-203 and 344-441: the selection sets in the order they are entered *)
  Fixpoint sets_one (parent : option tdef) (x : nsel) : list (option tdef * list nsel) :=
    match x with
    | NField _ n _ _ sub =>
        let ty := type_of_def (match parent with Some t => field_by_name t n | None => None end) in
        (ty, sub) :: flat_map (sets_one ty) sub
    | NSpread _ _ => []
    | NInline tc _ sub =>
        let ty := match tc with Some c => type_by_name sch c | None => parent end in
        (ty, sub) :: flat_map (sets_one ty) sub
    end.
  Definition sets_of (d : definition) : list (option tdef * list nsel) :=
    let '(p, set) := match d with
                     | Frag _ tc set => (type_by_name sch tc, set)
                     | Oper (Some r) set => (type_by_name sch r, set)
                     | Oper None set => (None, set)
                     end in
    (p, set) :: flat_map (sets_one p) set.
  Definition validate (fuel : nat) : option (list conflict) :=
    match each (within_set fuel) (flat_map sets_of doc) (mkstate [] []) with
    | None => None
    | Some (l, _) => Some l
    end.
End Rule.
