(** Authorization: rule metadata, the operation filter and the rebuilt operation.
    Sources (bin/router/src): pipeline/authorization/{metadata,user_auth_context,mod}.rs,
    executor/operation_filter.rs, pipeline/nullify/rebuilder.rs. *)
From Coq Require Import String List Bool Arith.
From Verif Require Import Ast TrieModel.
Import ListNotations.
Local Open Scope string_scope.
Local Open Scope list_scope.

Fixpoint assoc {A} (k : string) (l : list (string * A)) : option A :=
  match l with
  | [] => None
  | (k', v) :: l' => if String.eqb k k' then Some v else assoc k l'
  end.

Definition mem (s : string) (l : list string) : bool := existsb (String.eqb s) l.
Definition memn (n : nat) (l : list nat) : bool := existsb (Nat.eqb n) l.

(** ** Schema inputs *)

(** The authorization directives of one type or field: whether [@authenticated] occurs, and the
    [scopes] arguments of its [@requiresScopes] occurrences. *)
Record dirs := mkdirs { d_authenticated : bool; d_scopes : list gvalue }.

(** [SupergraphDefinition]: [k_rules = false] for unions and input objects
    (user_auth_context.rs:208-211), [d_fields = []] for scalars and enums. *)
Record tydef := mktydef {
  k_rules : bool;
  k_name : string;
  k_dirs : dirs;
  k_fields : list (string * dirs) }.

(** The part of [SchemaMetadata] (executor/introspection/schema.rs) used here: for each type its
    fields with output type name and outermost nullability, and the possible types of abstract types. *)
Record schema := mkschema {
  s_fields : list (string * list (string * (string * bool)));
  s_possible : list (string * list string) }.

Definition type_fields (Sc : schema) (t : string) : list (string * (string * bool)) :=
  match assoc t (s_fields Sc) with Some l => l | None => [] end.
Definition possible_types (Sc : schema) (t : string) : list string :=
  match assoc t (s_possible Sc) with Some l => l | None => [] end.
Definition field_info (Sc : schema) (t f : string) : option (string * bool) :=
  assoc f (type_fields Sc t).

(** ** Metadata: metadata.rs *)

(** [AuthorizationRule], metadata.rs:23-29.  A [ScopeId] is an index into the interner. *)
Inductive rule := RAuthenticated | RScopes (or_groups : list (list nat)).

(** [AuthorizationMetadata], metadata.rs:37-46 *)
Record meta := mkmeta {
  type_rules : list (string * rule);
  field_rules : list (string * list (string * rule));
  scopes : list string;
  has_any_auth : list (string * bool) }.

(** [ScopeInterner::get] *)
Fixpoint index_of (s : string) (l : list string) (i : nat) : option nat :=
  match l with
  | [] => None
  | x :: l' => if String.eqb s x then Some i else index_of s l' (S i)
  end.
Definition lookup_scope (l : list string) (s : string) : option nat := index_of s l 0.

(** [ScopeInterner::get_or_intern] *)
Definition get_or_intern (l : list string) (s : string) : nat * list string :=
  match lookup_scope l s with Some i => (i, l) | None => (length l, l ++ [s]) end.

Inductive auth_error := EInvalidArgs | EInvalidScope | EDuplicate | EFuel.

(** [normalize_and_group], user_auth_context.rs:288-320.  The final [sort] only reorders the ids. *)
Fixpoint intern_group (vs : list gvalue) (l : list string) : (list nat * list string) + auth_error :=
  match vs with
  | [] => inl ([], l)
  | GStr s :: vs' =>
      let '(i, l1) := get_or_intern l s in
      match intern_group vs' l1 with
      | inl (is, l2) => inl (i :: is, l2)
      | inr e => inr e
      end
  | _ :: _ => inr EInvalidScope
  end.

Definition normalize_and_group (v : gvalue) (l : list string) : (list nat * list string) + auth_error :=
  match v with
  | GList vs =>
      match intern_group vs l with
      | inl ([], _) => inr EInvalidArgs
      | r => r
      end
  | _ => inr EInvalidArgs
  end.

Fixpoint intern_groups (vs : list gvalue) (l : list string) : (list (list nat) * list string) + auth_error :=
  match vs with
  | [] => inl ([], l)
  | v :: vs' =>
      match normalize_and_group v l with
      | inr e => inr e
      | inl (g, l1) =>
          match intern_groups vs' l1 with
          | inl (gs, l2) => inl (g :: gs, l2)
          | inr e => inr e
          end
      end
  end.

(** [normalize_scopes_arg], user_auth_context.rs:262-286 *)
Definition normalize_scopes_arg (v : gvalue) (l : list string) : (list (list nat) * list string) + auth_error :=
  match v with
  | GList vs =>
      match intern_groups vs l with
      | inl ([], _) => inr EInvalidArgs
      | r => r
      end
  | _ => inr EInvalidArgs
  end.

(** [extract_rule_from_directives], user_auth_context.rs:239-259 *)
Definition extract_rule (d : dirs) (l : list string) : (option rule * list string) + auth_error :=
  match d_scopes d with
  | _ :: _ :: _ => inr EDuplicate
  | [v] =>
      match normalize_scopes_arg v l with
      | inl (gs, l') => inl (Some (RScopes gs), l')
      | inr e => inr e
      end
  | [] => inl (if d_authenticated d then Some RAuthenticated else None, l)
  end.

Fixpoint extract_fields (fs : list (string * dirs)) (l : list string)
  : (list (string * rule) * list string) + auth_error :=
  match fs with
  | [] => inl ([], l)
  | (f, d) :: fs' =>
      match extract_rule d l with
      | inr e => inr e
      | inl (r, l1) =>
          match extract_fields fs' l1 with
          | inr e => inr e
          | inl (rs, l2) => inl (match r with Some r => (f, r) :: rs | None => rs end, l2)
          end
      end
  end.

Record acc := mkacc {
  a_types : list (string * rule);
  a_fields : list (string * list (string * rule));
  a_scopes : list string }.

(** [process_type_definition], user_auth_context.rs:179-236 *)
Definition process_type (t : tydef) (a : acc) : acc + auth_error :=
  if k_rules t then
    match extract_rule (k_dirs t) (a_scopes a) with
    | inr e => inr e
    | inl (r, l1) =>
        match extract_fields (k_fields t) l1 with
        | inr e => inr e
        | inl (fr, l2) =>
            inl (mkacc (match r with Some r => (k_name t, r) :: a_types a | None => a_types a end)
                       (match fr with [] => a_fields a | _ => (k_name t, fr) :: a_fields a end)
                       l2)
        end
    end
  else inl a.

Fixpoint process_types (ts : list tydef) (a : acc) : acc + auth_error :=
  match ts with
  | [] => inl a
  | t :: ts' => match process_type t a with inl a' => process_types ts' a' | inr e => inr e end
  end.

Section Reach.
  Variable Sc : schema.
  Variable tr : list (string * rule).
  Variable fr : list (string * list (string * rule)).

  Definition has_own_rule (t : string) : bool :=
    (match assoc t tr with Some _ => true | None => false end)
    || match assoc t fr with Some (_ :: _) => true | _ => false end.

  Definition type_children (t : string) : list string :=
    possible_types Sc t ++ map (fun f => fst (snd f)) (type_fields Sc t).

  (** [type_has_any_auth_recursive], user_auth_context.rs:120-176; [None] when the recursion depth
      is exhausted ([AuthProofs] shows this never happens for the fuel used below). *)
  Fixpoint dfs (fuel : nat) (t : string) (visited : list string) : option (bool * list string) :=
    match fuel with
    | O => None
    | S fuel' =>
        if mem t visited then Some (false, visited)
        else if has_own_rule t then Some (true, t :: visited)
        else
          (fix go (cs : list string) (v : list string) : option (bool * list string) :=
             match cs with
             | [] => Some (false, v)
             | c :: cs' =>
                 match dfs fuel' c v with
                 | Some (false, v') => go cs' v'
                 | r => r
                 end
             end) (type_children t) (t :: visited)
    end.

  (** Every type name the search can meet. *)
  Definition universe (names : list string) : list string :=
    names ++ map fst (s_fields Sc) ++ map fst (s_possible Sc)
    ++ flat_map (fun tf => map (fun f => fst (snd f)) (snd tf)) (s_fields Sc)
    ++ flat_map snd (s_possible Sc).

  (** [compute_type_auth_metadata], user_auth_context.rs:98-118 *)
  Fixpoint compute_has_any (fuel : nat) (names : list string) : option (list (string * bool)) :=
    match names with
    | [] => Some []
    | n :: ns =>
        match dfs fuel n [], compute_has_any fuel ns with
        | Some (b, _), Some r => Some ((n, b) :: r)
        | _, _ => None
        end
    end.
End Reach.

(** [AuthorizationMetadata::build], user_auth_context.rs:62-92 *)
Definition build (Sc : schema) (defs : list tydef) : meta + auth_error :=
  match process_types defs (mkacc [] [] []) with
  | inr e => inr e
  | inl a =>
      let names := map k_name defs in
      match compute_has_any Sc (a_types a) (a_fields a) (S (length (universe Sc names))) names with
      | Some h => inl (mkmeta (a_types a) (a_fields a) (a_scopes a) h)
      | None => inr EFuel
      end
  end.

(** [is_empty], user_auth_context.rs:94-96 *)
Definition meta_is_empty (m : meta) : bool :=
  match type_rules m, field_rules m with [], [] => true | _, _ => false end.

(** ** The caller *)

(** [JwtRequestDetails]: [None] when unauthenticated, else the scopes of the token, if any. *)
Definition jwt := option (option (list string)).

(** [UserAuthContext], user_auth_context.rs:16-50 *)
Record user := mkuser { u_auth : bool; u_scopes : list nat }.

Fixpoint filter_map {A B} (f : A -> option B) (l : list A) : list B :=
  match l with
  | [] => []
  | x :: l' => match f x with Some y => y :: filter_map f l' | None => filter_map f l' end
  end.

Definition user_of (m : meta) (j : jwt) : user :=
  match j with
  | Some sc => mkuser true (filter_map (lookup_scope (scopes m)) (match sc with Some l => l | None => [] end))
  | None => mkuser false []
  end.

(** ** [AuthorizationChecker], mod.rs:86-153.  The per-address memo table is omitted. *)
Definition rule_satisfied (u : user) (r : rule) : bool :=
  match r with
  | RAuthenticated => u_auth u
  | RScopes gs => u_auth u && existsb (fun g => forallb (fun i => memn i (u_scopes u)) g) gs
  end.

Definition parent_has_auth (m : meta) (t : string) : bool :=
  match assoc t (has_any_auth m) with Some b => b | None => true end.

Definition is_type_authorized (m : meta) (u : user) (t : string) : bool :=
  match assoc t (type_rules m) with Some r => rule_satisfied u r | None => true end.

Definition is_field_authorized (m : meta) (u : user) (t f : string) : bool :=
  match assoc t (field_rules m) with
  | Some fs => match assoc f fs with Some r => rule_satisfied u r | None => true end
  | None => true
  end.

(** The visitor closure of mod.rs:240-268. *)
Definition keep_field (m : meta) (u : user) (parent field output : string) : bool :=
  negb (parent_has_auth m parent)
  || (is_type_authorized m u parent && is_field_authorized m u parent field
      && is_type_authorized m u output).
Definition keep_fragment (m : meta) (u : user) (parent cond : string) : bool :=
  negb (parent_has_auth m parent) || is_type_authorized m u cond.

(** ** [OperationFilter], operation_filter.rs *)

Definition response_key (name : string) (alias : option string) : string :=
  match alias with Some a => a | None => name end.

(** [record_error], operation_filter.rs:307-322: the response keys of the path. *)
Definition field_keys (p : path) : list string :=
  flat_map (fun s => match s with SegField k => [k] | SegFrag _ => [] end) p.

Record fout := mkfout { f_prop : bool; f_errors : list (list string); f_paths : list path }.

Section Filter.
  Variable Sc : schema.
  (** [variable_equals_true] *)
  Variable vars : string -> bool.
  Variable keepf : string -> string -> string -> bool.
  Variable keepg : string -> string -> bool.

  (** [is_ignored], operation_filter.rs:324-338 *)
  Definition is_ignored (skip_if include_if : option string) : bool :=
    (match skip_if with Some v => vars v | None => false end)
    || (match include_if with Some v => negb (vars v) | None => false end).

  (** [collect_all_field_paths], operation_filter.rs:282-301 *)
  Fixpoint collect (x : sel) (p : path) : list path :=
    match x with
    | SField n a _ _ _ _ _ => [p ++ [SegField (response_key n a)]]
    | SFrag t _ _ sub => flat_map (fun y => collect y (p ++ [SegFrag t])) sub
    | SSpread _ => []
    end.

  (** The loop of [visit_selection_set], operation_filter.rs:137-173: outputs are appended in
      order, propagation flags are or-ed, the first error aborts. *)
  Fixpoint sequence (rs : list (option fout)) : option fout :=
    match rs with
    | [] => Some (mkfout false [] [])
    | None :: _ => None
    | Some a :: rs' =>
        match sequence rs' with
        | None => None
        | Some b => Some (mkfout (f_prop a || f_prop b) (f_errors a ++ f_errors b) (f_paths a ++ f_paths b))
        end
    end.

  (** [visit_field] and [visit_inline_fragment], operation_filter.rs:175-280; [None] is
      [FieldNotFound].  The decision memo table is omitted (the visitor is a pure function). *)
  Fixpoint visit (x : sel) (parent : string) (p : path) : option fout :=
    match x with
    | SField n a _ inc skip _ sub =>
        if is_ignored skip inc then Some (mkfout false [] [])
        else if String.eqb n "__typename" then Some (mkfout false [] [])
        else
          match field_info Sc parent n with
          | None => None
          | Some (out, non_null) =>
              let p' := p ++ [SegField (response_key n a)] in
              if keepf parent n out then
                match sequence (map (fun y => visit y out p') sub) with
                | None => None
                | Some r =>
                    Some (mkfout (f_prop r && non_null) (f_errors r)
                                 (if f_prop r then f_paths r ++ [p'] else f_paths r))
                end
              else Some (mkfout non_null [field_keys p'] [p'])
          end
    | SFrag t inc skip sub =>
        if is_ignored skip inc then Some (mkfout false [] [])
        else if keepg parent t then sequence (map (fun y => visit y t (p ++ [SegFrag t])) sub)
        else Some (mkfout false [field_keys p] (flat_map (fun y => collect y (p ++ [SegFrag t])) sub))
    | SSpread _ => Some (mkfout false [] [])
    end.

  Definition visit_all (xs : list sel) (parent : string) (p : path) : option fout :=
    sequence (map (fun y => visit y parent p) xs).
End Filter.

(** ** Rebuilding the operation, nullify/rebuilder.rs:16-132 *)
Section Rebuild.
  Variable t : trie.

  Definition rebuild_all (rebuild : sel -> nat -> list sel) (xs : list sel) (pos : nat) : list sel :=
    if has_children t pos then flat_map (fun y => rebuild y pos) xs else xs.

  Definition drop_empty (orig filtered : list sel) (k : list sel -> sel) : list sel :=
    match filtered, orig with
    | [], _ :: _ => []
    | _, _ => [k filtered]
    end.

  Fixpoint rebuild (x : sel) (pos : nat) : list sel :=
    match x with
    | SField n a args inc skip om sub =>
        match find_segment t pos (SegField (response_key n a)) with
        | None => [x]
        | Some (_, true) => []
        | Some (child, false) =>
            drop_empty sub (if has_children t child then flat_map (fun y => rebuild y child) sub else sub)
                       (SField n a args inc skip om)
        end
    | SFrag c inc skip sub =>
        match find_segment t pos (SegFrag c) with
        | None => [x]
        | Some (child, _) =>
            drop_empty sub (if has_children t child then flat_map (fun y => rebuild y child) sub else sub)
                       (SFrag c inc skip)
        end
    | SSpread _ => []
    end.
End Rebuild.

(** Variables used by a selection, rebuilder.rs:203-289. *)
Fixpoint value_vars (v : gvalue) : list string :=
  match v with
  | GVar n => [n]
  | GList l => flat_map value_vars l
  | GObj o => flat_map (fun kv => value_vars (snd kv)) o
  | _ => []
  end.

Definition opt_list {A} (o : option A) : list A := match o with Some x => [x] | None => [] end.

Fixpoint sel_vars (x : sel) : list string :=
  match x with
  | SField _ _ args inc skip _ sub =>
      (match args with Some l => flat_map (fun kv => value_vars (snd kv)) l | None => [] end)
      ++ opt_list skip ++ opt_list inc ++ flat_map sel_vars sub
  | SFrag _ inc skip sub => opt_list skip ++ opt_list inc ++ flat_map sel_vars sub
  | SSpread _ => []
  end.

(** [rebuild_nulled_operation], rebuilder.rs:16-45.  The code gathers the used variables during the
    walk, from exactly the selections it keeps. *)
Definition rebuild_operation (t : trie) (op : operation) : operation :=
  let sels := rebuild_all t (rebuild t) (op_sels op) 0 in
  let used := flat_map sel_vars sels in
  mkop (op_name op) (op_kind op) sels
       (option_map (filter (fun d => mem (vd_name d) used)) (op_vars op)).

(** ** Decision, mod.rs:208-296 *)
Inductive decision :=
| NoChange
| Modified (op : operation) (nulled : trie) (errors : list (list string))
| Reject (errors : list (list string))
| FieldNotFound.

Definition apply_authorization (Sc : schema) (m : meta) (vars : string -> bool) (j : jwt)
           (root : string) (op : operation) (reject_mode : bool) : decision :=
  if meta_is_empty m then NoChange
  else
    let u := user_of m j in
    if u_auth u && match scopes m with [] => true | _ => false end then NoChange
    else
      match visit_all Sc vars (keep_field m u) (keep_fragment m u) (op_sels op) root [] with
      | None => FieldNotFound
      | Some r =>
          match f_errors r with
          | [] => NoChange
          | _ =>
              if reject_mode then Reject (f_errors r)
              else let t := from_paths (f_paths r) in
                   Modified (rebuild_operation t op) t (f_errors r)
          end
      end.
