(** The schema coordinates that are reported for an operation.
    Models lib/hive-console-sdk/src/agent/utils.rs:21-520 on the walk of [WalkModel].  A coordinate is kept in parts instead of the text that
    [format!] makes of it.  [used_variables] is only written to and is left out. *)
From Coq Require Import String List Bool.
From Verif Require Import Ast ConsumerModel IntroModel CondModel NormModel WalkModel.
Import ListNotations.
Local Open Scope string_scope.
Local Open Scope list_scope.

(** [T], [T.f], [T.f.a], and one of them with [!] *)
Inductive coord := CType (t : string) | CMember (t f : string) | CArg (t f a : string) | CGiven (c : coord).
Fixpoint coord_eqb (a b : coord) : bool :=
  match a, b with
  | CType t, CType t' => String.eqb t t'
  | CMember t f, CMember t' f' => String.eqb t t' && String.eqb f f'
  | CArg t f x, CArg t' f' x' => String.eqb t t' && String.eqb f f' && String.eqb x x'
  | CGiven c, CGiven c' => coord_eqb c c'
  | _, _ => false
  end.
Definition known (n : string) (l : list string) : bool := existsb (String.eqb n) l.

(** utils.rs:21-33, 88-90; [fields] is the field stack of the walk, operation_visitor.rs:82-95 *)
Record state := mkstate {
  coords : list coord; used_types : list string; provided : list (coord * nat); defaults : list string; corrupted : bool;
  visited : list string; fields : list (option field) }.
Definition start_state : state := mkstate [] [] [] [] false [] [].
Definition insert (l : list coord) (s : state) : state :=
  mkstate (coords s ++ l) (used_types s) (provided s) (defaults s) (corrupted s) (visited s) (fields s).
Definition corrupt (s : state) : state := mkstate (coords s) (used_types s) (provided s) (defaults s) true (visited s) (fields s).
Definition set_fields (l : list (option field)) (s : state) : state :=
  mkstate (coords s) (used_types s) (provided s) (defaults s) (corrupted s) (visited s) l.
Definition set_provided (l : list (coord * nat)) (s : state) : state :=
  mkstate (coords s) (used_types s) l (defaults s) (corrupted s) (visited s) (fields s).

(** utils.rs:66-68 *)
Definition is_builtin_scalar (n : string) : bool := known n ["String"; "Int"; "Float"; "Boolean"; "ID"].
(** utils.rs:70-83 *)
Fixpoint take (c : coord) (l : list (coord * nat)) : bool * list (coord * nat) :=
  match l with
  | [] => (false, [])
  | (c', n) :: l' =>
      if coord_eqb c c' then match n with 0 => (false, l) | S m => (true, (c', m) :: l') end
      else let '(b, r) := take c l' in (b, (c', n) :: r)
  end.
Fixpoint count (c : coord) (l : list (coord * nat)) : list (coord * nat) :=
  match l with [] => [(c, 1)] | (c', n) :: l' => if coord_eqb c c' then (c', S n) :: l' else (c', n) :: count c l' end.
Definition mark_as_used (c : coord) (s : state) : state :=
  let '(b, p) := take c (provided s) in insert ((if b then [CGiven c] else []) ++ [c]) (set_provided p s).

Section Collect.
  Variable sch : list definition.

  (** utils.rs:93-132 *)
  Fixpoint default_coords (t : string) (v : gvalue) : list coord :=
    match v with
    | GObj o =>
        match type_by_name sch t with
        | Some (InputObject _ _ _ fs) =>
            (fix go (o : list (string * gvalue)) : list coord :=
               match o with
               | [] => []
               | (k, x) :: o' =>
                   match input_by_name fs k with
                   | Some f => [CGiven (CMember t k); CMember t k] ++ default_coords (inner_type (iv_type f)) x
                   | None => []
                   end ++ go o'
               end) o
        | _ => []
        end
    | GList l => (fix go (l : list gvalue) : list coord := match l with [] => [] | x :: l' => default_coords t x ++ go l' end) l
    | GEnum e => [CMember t e]
    | _ => []
    end.

  (** utils.rs:142-175; the answer [None] is for a recursion that does not end *)
  Definition refs_in (rec : string -> list string -> option (list string)) : list string -> list string -> option (list string) :=
    fix go l v := match l with [] => Some v | n :: l' => match rec n v with Some v' => go l' v' | None => None end end.
  Fixpoint refs (fuel : nat) (n : string) (v : list string) : option (list string) :=
    if known n v then Some v
    else match fuel with
         | 0 => None
         | S fuel =>
             match type_by_name sch n with
             | Some (InputObject _ _ _ fs) => refs_in (refs fuel) (map (fun f => inner_type (iv_type f)) fs) (v ++ [n])
             | _ => Some (v ++ [n])
             end
         end.

  (** utils.rs:177-226 *)
  Definition nested_in (rec : string -> list string * list coord -> option (list string * list coord)) (t : string) :
    list input_value -> list string * list coord -> option (list string * list coord) :=
    fix go l s := match l with
                  | [] => Some s
                  | f :: l' => match rec (inner_type (iv_type f)) (fst s, snd s ++ [CMember t (iv_name f)]) with Some s' => go l' s' | None => None end
                  end.
  Fixpoint nested (fuel : nat) (n : string) (s : list string * list coord) : option (list string * list coord) :=
    match type_by_name sch n with
    | Some (Scalar m _ _) => Some (fst s, snd s ++ [CType m])
    | Some (InputObject m _ _ fs) =>
        if known m (fst s) then Some s
        else match fuel with
             | 0 => None
             | S fuel => nested_in (nested fuel) m fs (fst s ++ [m], snd s)
             end
    | Some (Enum m _ _ vs) => Some (fst s, snd s ++ map (fun v => CMember m (ev_name v)) vs)
    | Some _ => Some s
    | None => Some (if is_builtin_scalar n then (fst s, snd s ++ [CType n]) else s)
    end.
  Definition enough : nat := S (List.length sch).

  Definition is_scalar (n : string) : bool := match type_by_name sch n with Some (Scalar _ _ _) => true | _ => false end.
  Definition scalar_coord (n : string) : list coord := if is_builtin_scalar n || is_scalar n then [CType n] else [].
  Definition has_value (s : state) (v : gvalue) : bool :=
    match v with GNull => false | GVar x => known x (defaults s) | _ => true end.

  (** utils.rs:238-276 *)
  Definition on_field (c : ctx) (n : string) (s : state) : state :=
    match c_parent c with
    | None => corrupt s
    | Some p =>
        insert (CMember (type_name p) n ::
          match field_by_name p n with
          | Some f => match type_by_name sch (inner_type (f_type f)) with
                      | Some (Enum m _ _ vs) => map (fun v => CMember m (ev_name v)) vs
                      | _ => []
                      end
          | None => []
          end) s
    end.
  (** utils.rs:278-305 *)
  Definition on_variable (v : vardef) (s : state) : option state :=
    let t := inner_type (vd_type v) in
    match refs enough t [] with
    | None => None
    | Some l =>
        Some (insert (match vd_default v with Some x => default_coords t x | None => [] end)
          (mkstate (coords s) (used_types s ++ l ++ [t]) (provided s)
             (match vd_default v with Some _ => defaults s ++ [vd_name v] | None => defaults s end) (corrupted s) (visited s) (fields s)))
    end.
  (** utils.rs:307-387 *)
  Definition argument_coords (t : string) (v : gvalue) : list coord :=
    match v with
    | GEnum e => [CMember t e]
    | GList _ | GVar _ => []
    | GObj _ => if is_scalar t then [CType t] else []
    | _ => scalar_coord t
    end.
  Definition on_argument (c : ctx) (n : string) (v : gvalue) (s : state) : state :=
    match c_parent c with
    | None => corrupt s
    | Some p =>
        match fields s with
        | Some f :: _ =>
            let x := CArg (type_name p) (f_name f) n in
            let s1 := if has_value s v then set_provided (count x (provided s)) s else s in
            let s2 := mark_as_used x s1 in
            match field_by_name p (f_name f) with
            | Some f' => match input_by_name (f_args f') n with Some a => insert (argument_coords (inner_type (iv_type a)) v) s2 | None => s2 end
            | None => s2
            end
        | _ => s
        end
    end.
  (** utils.rs:389-432 *)
  Definition item_coords (t : string) (v : gvalue) : list coord :=
    match v with GEnum e => [CMember t e] | GObj _ | GList _ | GVar _ => [] | _ => scalar_coord t end.
  Definition on_list (c : ctx) (l : list gvalue) (s : state) : state :=
    match typed sch (c_input c) with
    | Some t => insert (flat_map (item_coords (type_name t)) l) s
    | None => s
    end.
  (** utils.rs:434-518; there is no check for [corrupted] *)
  Definition entry_coords (t : string) (v : gvalue) : list coord :=
    match v with
    | GEnum e => [CMember t e]
    | GList _ | GNull => []
    | GObj _ => if is_scalar t then [CType t] else []
    | _ => scalar_coord t
    end.
  Definition on_entry (m : string) (fs : list input_value) (e : string * gvalue) (s : state) : option state :=
    match input_by_name fs (fst e) with
    | None => Some s
    | Some f =>
        let x := CMember m (iv_name f) in
        let t := inner_type (iv_type f) in
        let s1 := mark_as_used x (insert (x :: if has_value s (snd e) then [CGiven x] else []) s) in
        let s2 := insert (entry_coords t (snd e)) s1 in
        match snd e, type_by_name sch t with
        | GNull, Some (InputObject _ _ _ _) =>
            match nested enough t (visited s2, coords s2) with
            | Some (v, l) => Some (mkstate l (used_types s2) (provided s2) (defaults s2) (corrupted s2) v (fields s2))
            | None => None
            end
        | _, _ => Some s2
        end
    end.
  Fixpoint on_entries (m : string) (fs : list input_value) (o : list (string * gvalue)) (s : state) : option state :=
    match o with
    | [] => Some s
    | e :: o' => match on_entry m fs e s with Some s' => on_entries m fs o' s' | None => None end
    end.
  Definition on_object (c : ctx) (o : list (string * gvalue)) (s : state) : option state :=
    match typed sch (c_input c) with
    | Some (InputObject m _ _ fs) => on_entries m fs o s
    | _ => Some s
    end.

  Definition unless_corrupted (s : state) (r : option state) : option state := if corrupted s then Some s else r.
  Definition on_call (x : call) (s : state) : option state :=
    let '(c, e) := x in
    match e with
    | EnterField _ n _ _ _ =>
        option_map (fun s' => set_fields (match c_parent c with Some p => field_by_name p n | None => None end :: fields s') s')
          (unless_corrupted s (Some (on_field c n s)))
    | LeaveField => Some (set_fields (tl (fields s)) s)
    | EnterVariable v => unless_corrupted s (on_variable v s)
    | EnterArgument n v => unless_corrupted s (Some (on_argument c n v s))
    | EnterList l => unless_corrupted s (Some (on_list c l s))
    | EnterObject o => on_object c o s
    | _ => Some s
    end.
  Fixpoint on_calls (l : list call) (s : state) : option state :=
    match l with [] => Some s | x :: l' => match on_call x s with Some s' => on_calls l' s' | None => None end end.

  (** the order of a [HashSet] *)
  Variable iter : list string -> list string.
  Fixpoint nested_all (l : list string) (s : list string * list coord) : option (list string * list coord) :=
    match l with [] => Some s | n :: l' => match nested enough n s with Some s' => nested_all l' s' | None => None end end.
  (** utils.rs:35-64 *)
  Inductive collected := Panic | NoEnd | NoParent | Coordinates (l : list coord).
  Definition collect (doc : list qdef) : collected :=
    match walk sch doc with
    | None => Panic
    | Some calls =>
        match on_calls calls start_state with
        | None => NoEnd
        | Some s =>
            if corrupted s then NoParent
            else match nested_all (iter (used_types s)) (visited s, coords s) with Some (_, l) => Coordinates l | None => NoEnd end
        end
    end.
End Collect.
