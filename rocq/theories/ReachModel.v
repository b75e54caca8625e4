(** Validation rules that follow fragment spreads.
    Models the files of lib/graphql-tools/src/validation/rules named below and lib/graphql-tools/src/ast/collect_fields.rs.
    Hash maps and hash sets are lists; the order of reports that come from their iteration is not meant. *)
From Coq Require Import String List Bool Arith.
From Verif Require Import StrUtil Ast ConsumerModel IntroModel CondModel NormModel WalkModel LocalModel.
Import ListNotations.
Local Open Scope string_scope.
Local Open Scope list_scope.

Inductive rerr :=
| ManyFields (operation : option string) | IntrospectionField (operation : option string)
| UnusedFragment (name : string) | FragmentCycle (name : string) (via : list string)
| UnusedVariable (name : string) (operation : option string) | UndefinedVariable (name : string) (operation : option string)
| BadUse (name : string) (type position : tnode)
| OutOfFuel (* never reported, see the proofs *)
| Panicked.

(** Maps *)
Section Maps.
  Context {K V : Type}.
  Variable eqb : K -> K -> bool.
  Fixpoint mget (m : list (K * V)) (k : K) : option V :=
    match m with [] => None | (k', v) :: m' => if eqb k k' then Some v else mget m' k end.
  Fixpoint mput (m : list (K * V)) (k : K) (v : V) : list (K * V) :=
    match m with
    | [] => [(k, v)]
    | (k', v') :: m' => if eqb k k' then (k, v) :: m' else (k', v') :: mput m' k v
    end.
  Fixpoint mdel (m : list (K * V)) (k : K) : list (K * V) :=
    match m with [] => [] | (k', v') :: m' => if eqb k k' then mdel m' k else (k', v') :: mdel m' k end.
End Maps.
(** [entry(..).or_default()] on a map to lists *)
Definition mlist {K V} (eqb : K -> K -> bool) (m : list (K * list V)) (k : K) : list V :=
  match mget eqb m k with Some l => l | None => [] end.
Definition madd {K V} (eqb : K -> K -> bool) (m : list (K * list V)) (k : K) (l : list V) : list (K * list V) :=
  mput eqb m k (mlist eqb m k ++ l).
Definition sinsert (n : string) (l : list string) : list string := if smem n l then l else l ++ [n].

(** * single_field_subscriptions.rs and collect_fields.rs *)
Section Collect.
  Variable sch : list definition.
  Variable doc : list qdef.
  Variable parent : typedef.
  (** collect_fields.rs:29-58 *)
  Definition condition_matches (tc : option string) : bool :=
    match tc with
    | None => true
    | Some n =>
        match type_by_name sch n with
        | Some t =>
            if String.eqb (type_name t) (type_name parent) then true
            else if is_abstract t then has_sub_type t parent else false
        | None => false
        end
    end.
  (** collect_fields.rs:62-113; the state has the names of fields found and the fragments visited *)
  Definition collected : Type := list string * list string.
  Section Expand.
    Variable expand : list nsel -> collected -> option collected.
    Fixpoint collect_selection (x : nsel) (s : collected) : option collected :=
      match x with
      | NField _ n _ _ _ => Some (sinsert n (fst s), snd s)
      | NInline tc _ sub =>
          if condition_matches tc
          then (fix go (l : list nsel) (s : collected) : option collected :=
                  match l with
                  | [] => Some s
                  | y :: l' => match collect_selection y s with Some s' => go l' s' | None => None end
                  end) sub s
          else Some s
      | NSpread n _ =>
          if smem n (snd s) then Some s
          else let s' := (fst s, snd s ++ [n]) in
               match known_fragment doc n None with
               | Some (QFrag _ tc _ set) => if condition_matches (Some tc) then expand set s' else Some s'
               | _ => Some s'
               end
      end.
    Fixpoint collect_set (l : list nsel) (s : collected) : option collected :=
      match l with
      | [] => Some s
      | y :: l' => match collect_selection y s with Some s' => collect_set l' s' | None => None end
      end.
  End Expand.
  Fixpoint collect (fuel : nat) (set : list nsel) (s : collected) : option collected :=
    match fuel with
    | O => None
    | S fuel' => collect_set (collect fuel') set s
    end.
End Collect.

Section Rules.
  Variable sch : list definition.
  Variable doc : list qdef.

  (** single_field_subscriptions.rs:26-88 *)
  Definition single_field (name : option string) (set : list nsel) : list rerr :=
    match object_named sch (subscription_type_name sch) with
    | None => []
    | Some n =>
        match type_by_name sch n with
        | None => []
        | Some t =>
            match collect sch doc t (S (List.length doc)) set ([], []) with
            | None => [OutOfFuel]
            | Some (names, _) =>
                (if Nat.ltb 1 (List.length names) then [ManyFields name] else [])
                ++ map (fun _ => IntrospectionField name) (filter (starts_with "__") names)
            end
        end
    end.
  Definition single_field_subscriptions : visitor rerr := stateless (fun x =>
    match snd x with EnterOp KSubscription name _ _ set => single_field name set | _ => [] end).

  (** no_unused_fragments.rs:64-81: the fragments reached, by a queue *)
  Fixpoint reach_queue (fuel : nat) (spreads : list (string * list string)) (reachable queue : list string) : option (list string) :=
    match queue with
    | [] => Some reachable
    | f :: q =>
        match fuel with
        | O => None
        | S fuel' =>
            if smem f reachable then reach_queue fuel' spreads reachable q
            else
              let r := reachable ++ [f] in
              match mget String.eqb spreads f with
              | None => reach_queue fuel' spreads r q
              | Some l => reach_queue fuel' spreads r (q ++ filter (fun s => negb (smem s r)) l)
              end
        end
    end.
  (** the keys of [known_fragments] *)
  Fixpoint fragment_keys (doc : list qdef) (found : list string) : list string :=
    match doc with
    | [] => found
    | QFrag n _ _ _ :: doc' => fragment_keys doc' (sinsert n found)
    | _ :: doc' => fragment_keys doc' found
    end.
  (** no_unused_fragments.rs:14-95 *)
  Record fstate := mkfstate {
    fs_in_use : list string; fs_spreads_here : list string; fs_current : option string; fs_spreads : list (string * list string) }.
  Definition unused_fragments (s : fstate) : list rerr :=
    match reach_queue (List.length (fs_in_use s) + List.length (flat_map snd (fs_spreads s))) (fs_spreads s) [] (fs_in_use s) with
    | None => [OutOfFuel]
    | Some r => map UnusedFragment (filter (fun n => negb (smem n r)) (fragment_keys doc []))
    end.
  Definition no_unused_fragments : visitor rerr :=
    mkvisitor fstate (mkfstate [] [] None []) (fun s x =>
      match snd x with
      | EnterFrag n _ _ _ => (mkfstate (fs_in_use s) [] (Some n) (fs_spreads s), [])
      | LeaveFrag =>
          (match fs_current s with
           | Some n => mkfstate (fs_in_use s) [] None (mput String.eqb (fs_spreads s) n (fs_spreads_here s))
           | None => s
           end, [])
      | EnterSpread n _ =>
          (match fs_current s with
           | Some _ => mkfstate (fs_in_use s) (fs_spreads_here s ++ [n]) (fs_current s) (fs_spreads s)
           | None => mkfstate (fs_in_use s ++ [n]) (fs_spreads_here s) (fs_current s) (fs_spreads s)
           end, [])
      | LeaveDocument => (s, unused_fragments s)
      | _ => (s, [])
      end).

  (** * no_fragments_cycle.rs *)
  (** ext.rs:495-514: [get_recursive_fragment_spreads] *)
  Definition spreads_of (set : list nsel) : list string :=
    flat_map (fun y => match y with NSpread n _ => [n] | _ => [] end) set.
  Definition two_levels (set : list nsel) : list string :=
    flat_map (fun y => match y with NSpread n _ => [n] | NField _ _ _ _ sub | NInline _ _ sub => spreads_of sub end) set.
  (** no_fragments_cycle.rs:45-50 *)
  Inductive frame := EnterFragment (n : string) (set : list nsel) | ExitFragment (n : string) | EnterSpreadOf (n : string) | PopSpread.
  Record cstate := mkcstate {
    cs_visited : list string; cs_paths : list string; cs_index : list (string * nat); cs_errors : list rerr }.
  (** lines 54-132; frames to push come first *)
  Definition cycle_step (f : frame) (s : cstate) : list frame * cstate :=
    match f with
    | ExitFragment n => ([], mkcstate (cs_visited s) (cs_paths s) (mdel String.eqb (cs_index s) n) (cs_errors s))
    | PopSpread => ([], mkcstate (cs_visited s) (removelast (cs_paths s)) (cs_index s) (cs_errors s))
    | EnterFragment n set =>
        if smem n (cs_visited s) then ([], s)
        else
          let v := cs_visited s ++ [n] in
          match two_levels set with
          | [] => ([], mkcstate v (cs_paths s) (cs_index s) (cs_errors s))
          | l => (map EnterSpreadOf l ++ [ExitFragment n],
                  mkcstate v (cs_paths s) (mput String.eqb (cs_index s) n (List.length (cs_paths s))) (cs_errors s))
          end
    | EnterSpreadOf n =>
        match mget String.eqb (cs_index s) n with
        | None =>
            match known_fragment doc n None with
            | Some (QFrag m _ _ set) =>
                ([EnterFragment m set; PopSpread], mkcstate (cs_visited s) (cs_paths s ++ [n]) (cs_index s) (cs_errors s))
            | _ => ([], s)
            end
        | Some i =>
            let paths := cs_paths s ++ [n] in
            let e := if Nat.ltb (List.length paths) i then Panicked else FragmentCycle n (removelast (skipn i paths)) in
            ([], mkcstate (cs_visited s) (cs_paths s) (cs_index s) (cs_errors s ++ [e]))
        end
    end.
  Fixpoint cycle_run (fuel : nat) (stack : list frame) (s : cstate) : option cstate :=
    match stack with
    | [] => Some s
    | f :: rest =>
        match fuel with
        | O => None
        | S fuel' => let '(push, s') := cycle_step f s in cycle_run fuel' (push ++ rest) s'
        end
    end.
  (** Enough steps: every definition is entered once *)
  Definition cycle_weight (set : list nsel) : nat := 1 + 3 * List.length (two_levels set).
  Definition cycle_fuel (set : list nsel) : nat :=
    1 + cycle_weight set + list_sum (map (fun d => match d with QFrag _ _ _ set => cycle_weight set | _ => 0 end) doc).
  (** lines 136-154 *)
  Definition no_fragments_cycle : visitor rerr :=
    mkvisitor (list string) [] (fun visited x =>
      match snd x with
      | EnterFrag n _ _ set =>
          match cycle_run (cycle_fuel set) [EnterFragment n set] (mkcstate visited [] [] []) with
          | Some s => (cs_visited s, cs_errors s)
          | None => (visited, [OutOfFuel])
          end
      | _ => (visited, [])
      end).

  (** * Variables *)
  (** no_unused_variables.rs:73-77, no_undefined_variables.rs:72-76, variables_in_allowed_position.rs:110-114 *)
  Inductive scope := InOperation (n : option string) | InFragment (n : string).
  Definition name_eqb (a b : option string) : bool :=
    match a, b with Some a, Some b => String.eqb a b | None, None => true | _, _ => false end.
  Definition scope_eqb (a b : scope) : bool :=
    match a, b with InOperation a, InOperation b => name_eqb a b | InFragment a, InFragment b => String.eqb a b | _, _ => false end.
  Definition scope_mem (s : scope) (l : list scope) : bool := existsb (scope_eqb s) l.
  (** The search of the three rules: a scope is left when it was visited, else it is looked at and then what it spreads *)
  Section Explore.
    Context {A : Type}.
    Variable look : scope -> A -> A.
    Variable spreads : list (scope * list string).
    Section Next.
      Variable next : scope -> list scope * A -> option (list scope * A).
      Fixpoint explore_all (l : list string) (s : list scope * A) : option (list scope * A) :=
        match l with
        | [] => Some s
        | n :: l' => match next (InFragment n) s with Some s' => explore_all l' s' | None => None end
        end.
    End Next.
    Fixpoint explore (fuel : nat) (from : scope) (s : list scope * A) : option (list scope * A) :=
      match fuel with
      | O => None
      | S fuel' =>
          if scope_mem from (fst s) then Some s
          else explore_all (explore fuel') (mlist scope_eqb spreads from) (from :: fst s, look from (snd s))
      end.
    Definition explore_from (from : scope) (start : A) : option A :=
      match explore (2 + List.length (flat_map snd spreads)) from ([], start) with Some s => Some (snd s) | None => None end.
  End Explore.

  (** ext.rs:274-284 *)
  Fixpoint variables_in_use (v : gvalue) : list string :=
    match v with
    | GVar n => [n]
    | GList l => flat_map variables_in_use l
    | GObj o => flat_map (fun kv => variables_in_use (snd kv)) o
    | _ => []
    end.
  (** no_unused_variables.rs:79-139, no_undefined_variables.rs:78-140 *)
  Record vstate := mkvstate {
    vs_scope : option scope; vs_defined : list (option string * list string);
    vs_used : list (scope * list string); vs_spreads : list (scope * list string) }.
  Definition variables_step (s : vstate) (x : call) : vstate :=
    match snd x with
    | EnterOp _ n _ _ _ => mkvstate (Some (InOperation n)) (mput name_eqb (vs_defined s) n []) (vs_used s) (vs_spreads s)
    | EnterFrag n _ _ _ => mkvstate (Some (InFragment n)) (vs_defined s) (vs_used s) (vs_spreads s)
    | EnterSpread n _ =>
        match vs_scope s with
        | Some c => mkvstate (vs_scope s) (vs_defined s) (vs_used s) (madd scope_eqb (vs_spreads s) c [n])
        | None => s
        end
    | EnterVariable v =>
        match vs_scope s with
        | Some (InOperation n) =>
            match mget name_eqb (vs_defined s) n with
            | Some l => mkvstate (vs_scope s) (mput name_eqb (vs_defined s) n (sinsert (vd_name v) l)) (vs_used s) (vs_spreads s)
            | None => s
            end
        | _ => s
        end
    | EnterArgument _ v =>
        match vs_scope s with
        | Some c => mkvstate (vs_scope s) (vs_defined s) (madd scope_eqb (vs_used s) c (variables_in_use v)) (vs_spreads s)
        | None => s
        end
    | _ => s
    end.
  Definition no_vstate : vstate := mkvstate None [] [] [].
  (** no_unused_variables.rs:39-70, 141-169 *)
  Definition look_used (used : list (scope * list string)) (defined : list string) (from : scope) (found : list string) : list string :=
    fold_left (fun f v => if smem v defined then sinsert v f else f) (mlist scope_eqb used from) found.
  Definition unused_in (s : vstate) (d : option string * list string) : list rerr :=
    match explore_from (look_used (vs_used s) (snd d)) (vs_spreads s) (InOperation (fst d)) [] with
    | Some used => map (fun v => UnusedVariable v (fst d)) (filter (fun v => negb (smem v used)) (snd d))
    | None => [OutOfFuel]
    end.
  Definition no_unused_variables : visitor rerr :=
    mkvisitor vstate no_vstate (fun s x =>
      match snd x with
      | LeaveDocument => (s, flat_map (unused_in s) (vs_defined s))
      | _ => (variables_step s x, [])
      end).
  (** no_undefined_variables.rs:38-69, 142-167 *)
  Definition look_undefined (used : list (scope * list string)) (defined : list string) (from : scope) (found : list string) : list string :=
    fold_left (fun f v => if smem v defined then f else sinsert v f) (mlist scope_eqb used from) found.
  Definition undefined_in (s : vstate) (d : option string * list string) : list rerr :=
    match explore_from (look_undefined (vs_used s) (snd d)) (vs_spreads s) (InOperation (fst d)) [] with
    | Some found => map (fun v => UndefinedVariable v (fst d)) found
    | None => [OutOfFuel]
    end.
  Definition no_undefined_variables : visitor rerr :=
    mkvisitor vstate no_vstate (fun s x =>
      match snd x with
      | LeaveDocument => (s, flat_map (undefined_in s) (vs_defined s))
      | _ => (variables_step s x, [])
      end).

  (** * variables_in_allowed_position.rs *)
  (** derived equality of types *)
  Fixpoint type_eqb (a b : tnode) : bool :=
    match a, b with
    | TNamed a, TNamed b => String.eqb a b
    | TList a, TList b => type_eqb a b
    | TNonNull a, TNonNull b => type_eqb a b
    | _, _ => false
    end.
  (** ext.rs:142-209; [is_possible_type] is [has_sub_type] *)
  Definition is_object_or_interface (t : typedef) : bool :=
    match t with Object _ _ _ _ _ | Interface _ _ _ _ _ => true | _ => false end.
  Fixpoint is_subtype (sub super : tnode) {struct sub} : bool :=
    if type_eqb sub super then true
    else
      match super, sub with
      | TNonNull u, TNonNull s => is_subtype s u
      | TNonNull _, _ => false
      | _, TNonNull s => is_subtype s super
      | TList u, TList s => is_subtype s u
      | TList _, _ => false
      | _, TList _ => false
      | TNamed u, TNamed s =>
          match type_by_name sch s, type_by_name sch u with
          | Some st, Some ut => is_abstract ut && is_object_or_interface st && has_sub_type ut st
          | _, _ => false
          end
      end.
  (** lines 17-22 *)
  Record pstate := mkpstate {
    ps_scope : option scope; ps_spreads : list (scope * list string);
    ps_uses : list (scope * list (string * tnode * bool)); ps_defs : list (scope * list vardef) }.
  (** lines 52-94 *)
  Definition is_nonnull (t : tnode) : bool := match t with TNonNull _ => true | _ => false end.
  Definition bad_use (defs : list vardef) (use : string * tnode * bool) : list rerr :=
    let '(n, location, has_default) := use in
    match find (fun d => String.eqb (vd_name d) n) defs with
    | None => []
    | Some d =>
        let has_non_null_default := match vd_default d with Some GNull => false | Some _ => true | None => false end in
        let variable := if is_nonnull (vd_type d) then vd_type d
                        else if has_non_null_default then TNonNull (vd_type d) else vd_type d in
        let effective := match has_default, location with true, TNonNull t => t | _, _ => location end in
        if is_subtype variable effective then [] else [BadUse n variable location]
    end.
  Definition look_uses (uses : list (scope * list (string * tnode * bool))) (defs : list vardef) (from : scope) (found : list rerr) : list rerr :=
    found ++ flat_map (bad_use defs) (mlist scope_eqb uses from).
  Definition bad_uses_in (s : pstate) (d : scope * list vardef) : list rerr :=
    match explore_from (look_uses (ps_uses s) (snd d)) (ps_spreads s) (fst d) [] with
    | Some found => found
    | None => [OutOfFuel]
    end.
  (** lines 116-197 *)
  Definition positions_step (s : pstate) (x : call) : pstate :=
    match snd x with
    | EnterOp _ n _ _ _ => mkpstate (Some (InOperation n)) (ps_spreads s) (ps_uses s) (ps_defs s)
    | EnterFrag n _ _ _ => mkpstate (Some (InFragment n)) (ps_spreads s) (ps_uses s) (ps_defs s)
    | EnterSpread n _ =>
        match ps_scope s with
        | Some c => mkpstate (ps_scope s) (mput scope_eqb (ps_spreads s) c (sinsert n (mlist scope_eqb (ps_spreads s) c))) (ps_uses s) (ps_defs s)
        | None => s
        end
    | EnterVariable v =>
        match ps_scope s with
        | Some c => mkpstate (ps_scope s) (ps_spreads s) (ps_uses s) (madd scope_eqb (ps_defs s) c [v])
        | None => s
        end
    | EnterUse v =>
        match ps_scope s, c_input (fst x) with
        | Some c, Some t => mkpstate (ps_scope s) (ps_spreads s) (madd scope_eqb (ps_uses s) c [(v, t, c_default (fst x))]) (ps_defs s)
        | _, _ => s
        end
    | _ => s
    end.
  Definition variables_in_allowed_position : visitor rerr :=
    mkvisitor pstate (mkpstate None [] [] []) (fun s x =>
      match snd x with
      | LeaveDocument => (s, flat_map (bad_uses_in s) (ps_defs s))
      | _ => (positions_step s x, [])
      end).
End Rules.
