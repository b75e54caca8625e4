(** Normalization of an operation: the passes of query_planner/ast/normalization/mod.rs:27-57.
    Positions and spans are left out, and so is the variant restricted to a subgraph. *)
From Coq Require Import String List Bool Arith.
From Verif Require Import StrUtil Ast CoerceModel QplanModel CondModel.
Import ListNotations.
Local Open Scope string_scope.
Local Open Scope list_scope.

(** graphql-tools parser/query/ast.rs *)
Inductive nsel :=
| NField (alias : option string) (name : string) (args : list (string * gvalue)) (dirs : list directive) (sub : list nsel)
| NSpread (name : string) (dirs : list directive)
| NInline (tc : option string) (dirs : list directive) (sub : list nsel).

(** error.rs; [EFuel] stands for a recursion that did not end. *)
Inductive nerr := ENotFound (fragment : string) | ECyclic (fragment : string) | EField (field type : string)
  | EType (type : string) | EPossible (type : string) | EOperation (name : option string) | EFuel.
Inductive res (A : Type) := Ok (a : A) | Err (e : nerr).
Arguments Ok {A} a.
Arguments Err {A} e.
Definition bind {A B} (r : res A) (k : A -> res B) : res B := match r with Ok a => k a | Err e => Err e end.
(** A loop that pushes onto [new_items]. *)
Definition each (k : nsel -> res (list nsel)) : list nsel -> res (list nsel) :=
  fix each (l : list nsel) :=
    match l with
    | [] => Ok []
    | s :: l' => bind (k s) (fun a => bind (each l') (fun b => Ok (a ++ b)))
    end.

(** * drop_unused_operations.rs:8-59 *)
Inductive ndef :=
| NOp (kind : opkind) (name : option string) (sels : list nsel)
| NFrag (name : string) (tc : string) (sels : list nsel).
(** [None] for the name stands for [OperationDefinition::SelectionSet] as well as an unnamed one. *)
Definition same_name (a b : option string) : bool :=
  match a, b with Some x, Some y => String.eqb x y | None, None => true | _, _ => false end.
Fixpoint keep_used (operation_name : option string) (found : bool) (ds : list ndef) : list ndef * bool :=
  match ds with
  | [] => ([], found)
  | NFrag n t s :: ds' => let '(r, f) := keep_used operation_name found ds' in (NFrag n t s :: r, f)
  | NOp k n s :: ds' =>
      if found then keep_used operation_name found ds'
      else if match operation_name with None => true | Some _ => same_name n operation_name end
           then let '(r, f) := keep_used operation_name true ds' in (NOp k n s :: r, f)
           else keep_used operation_name found ds'
  end.
Definition drop_unused (operation_name : option string) (ds : list ndef) : res (list ndef) :=
  let '(r, found) := keep_used operation_name false ds in
  if found then Ok r else Err (EOperation operation_name).

(** * drop_skipped_fields.rs:37-78; [should_keep] is in [CondModel]. *)
Fixpoint drop_skipped_sel (s : nsel) : list nsel :=
  let all := fix all (l : list nsel) : list nsel :=
    match l with [] => [] | x :: l' => drop_skipped_sel x ++ all l' end in
  match s with
  | NField al n args dirs sub => if should_keep dirs then [NField al n args dirs (all sub)] else []
  | NInline tc dirs sub => if should_keep dirs then [NInline tc dirs (all sub)] else []
  | NSpread n dirs => if should_keep dirs then [NSpread n dirs] else []
  end.
Definition drop_skipped (l : list nsel) : list nsel := flat_map drop_skipped_sel l.

(** * normalize_fields.rs:38-98; only the selections of fragments are entered. *)
Fixpoint insert_by {A} (key : A -> string) (a : A) (l : list A) : list A :=
  match l with
  | [] => [a]
  | b :: l' => match String.compare (key a) (key b) with Gt => b :: insert_by key a l' | _ => a :: l end
  end.
(** [sort_by], a stable sort *)
Definition sort_by {A} (key : A -> string) (l : list A) : list A := fold_right (insert_by key) [] l.
Definition drop_name_equal_alias (alias : option string) (name : string) : option string :=
  match alias with Some a => if String.eqb a name then None else Some a | None => None end.
Fixpoint normalize_sel (s : nsel) : nsel :=
  match s with
  | NField al n args dirs sub =>
      NField (drop_name_equal_alias al n) n (sort_by fst args) (sort_by d_name dirs) sub
  | NInline tc dirs sub => NInline tc (sort_by d_name dirs) (map normalize_sel sub)
  | NSpread n dirs => NSpread n dirs
  end.
Definition normalize_fields (l : list nsel) : list nsel := map normalize_sel l.

(** * inline_fragment_spreads.rs *)
Record fragment := { fr_tc : string; fr_sels : list nsel }.
Definition fragments := list (string * fragment).
(** inline_fragment_spreads.rs:14-19: the last definition of a name counts. *)
Definition fragment_map (ds : list ndef) : fragments :=
  fold_left (fun m d => match d with NFrag n t s => kput n {| fr_tc := t; fr_sels := s |} m | NOp _ _ _ => m end) ds [].

Definition empty {A} (l : list A) : bool := match l with [] => true | _ => false end.
Definition opt_is (a : option string) (b : string) : bool := match a with Some x => String.eqb x b | None => false end.

Section Inline.
Context (frags : fragments).
(** inline_fragment_spreads.rs:127-163: the spread at the end of a chain, and its fragment. *)
Fixpoint walk (left : nat) (ptc : option string) (n : string) (dirs : list directive)
    : res (string * list directive * fragment) :=
  match kget n frags with
  | None => Err (ENotFound n)
  | Some d =>
      if opt_is ptc (fr_tc d) && empty dirs
      then match fr_sels d with
           | [NSpread n' dirs'] => match left with O => Err (ECyclic n) | S left' => walk left' ptc n' dirs' end
           | _ => Ok (n, dirs, d)
           end
      else Ok (n, dirs, d)
  end.
(** inline_fragment_spreads.rs:79-215; [body] handles the selections of a fragment. *)
Section Sel.
Context (body : option string -> list string -> list nsel -> res (list nsel)).
Fixpoint inline_sel (ptc : option string) (active : list string) (s : nsel) : res (list nsel) :=
  match s with
  | NField al n args dirs sub => bind (each (inline_sel None active) sub) (fun sub' => Ok [NField al n args dirs sub'])
  | NInline tc dirs sub => bind (each (inline_sel tc active) sub) (fun sub' => Ok [NInline tc dirs sub'])
  | NSpread n dirs =>
      bind (walk (length frags) ptc n dirs) (fun '(n', dirs', d) =>
        if existsb (String.eqb n') active then Err (ECyclic n')
        else if opt_is ptc (fr_tc d) && empty dirs'
             then body ptc (n' :: active) (fr_sels d)
             else bind (body (Some (fr_tc d)) (n' :: active) (fr_sels d))
                       (fun sub' => Ok [NInline (Some (fr_tc d)) dirs' sub']))
  end.
End Sel.
Fixpoint inline_sels (fuel : nat) (ptc : option string) (active : list string) (l : list nsel) : res (list nsel) :=
  match fuel with
  | O => Err EFuel
  | S fuel' => each (inline_sel (inline_sels fuel') ptc active) l
  end.
End Inline.
(** inline_fragment_spreads.rs:21-72 *)
Definition inline_def (m : fragments) (d : ndef) : res ndef :=
  match d with
  | NOp k n s => bind (inline_sels m (S (length m)) None [] s) (fun s' => Ok (NOp k n s'))
  | NFrag n t s => bind (inline_sels m (S (length m)) (Some t) [] s) (fun s' => Ok (NFrag n t s'))
  end.
Fixpoint each_def (k : ndef -> res ndef) (l : list ndef) : res (list ndef) :=
  match l with
  | [] => Ok []
  | s :: l' => bind (k s) (fun a => bind (each_def k l') (fun b => Ok (a :: b)))
  end.
Definition inline_doc (ds : list ndef) : res (list ndef) := each_def (inline_def (fragment_map ds)) ds.
(** drop_fragment_definitions.rs *)
Definition drop_fragments (ds : list ndef) : list ndef :=
  filter (fun d => match d with NOp _ _ _ => true | NFrag _ _ _ => false end) ds.

(** * The schema: the parts of [SupergraphDefinition] that normalization uses. *)
Inductive tdef :=
| DObject (fields : list (string * string)) (implements : list string)
| DInterface (fields : list (string * string))
| DUnion (members : list string)
| DLeaf.
Definition schema := list (string * tdef).
Definition fields_of (d : tdef) : list (string * string) :=
  match d with DObject fs _ => fs | DInterface fs => fs | _ => [] end.
Definition is_object (d : tdef) : bool := match d with DObject _ _ => true | _ => false end.
Definition is_abstract (d : tdef) : bool := match d with DInterface _ | DUnion _ => true | _ => false end.
Definition introspective (n : string) : bool := prefix "__" n.
(** flatten_fragments.rs:76-141 and type_expand.rs:33-67, without a subgraph *)
Definition possible_types (sc : schema) (t : string) : option (list string) :=
  match kget t sc with
  | Some (DUnion ms) => Some (nodup string_dec ms)
  | Some (DInterface _) =>
      Some (map fst (filter (fun kd => match snd kd with
                                       | DObject _ is => existsb (String.eqb t) is
                                       | _ => false
                                       end) sc))
  | _ => None
  end.
Definition get_type (sc : schema) (t : string) : res tdef :=
  match kget t sc with Some d => Ok d | None => Err (EType t) end.
Definition field_type (pname : string) (p : tdef) (f : string) : res string :=
  match kget f (fields_of p) with Some t => Ok t | None => Err (EField f pname) end.

Definition directive_eqb (a b : directive) : bool :=
  String.eqb (d_name a) (d_name b) &&
  list_eqb (fun x y => String.eqb (fst x) (fst y) && gvalue_eqb (snd x) (snd y)) (d_args a) (d_args b).
(** utils/ast.rs:20-36 *)
Definition directives_eqb : list directive -> list directive -> bool := list_eqb directive_eqb.

Section Schema.
Context (sc : schema).

(** * flatten_fragments.rs *)
(** flatten_fragments.rs:526-540 *)
Definition applies_to_object (tc : option string) (obj : string) : bool :=
  match tc with
  | None => true
  | Some c => String.eqb c obj || match possible_types sc c with Some ts => existsb (String.eqb obj) ts | None => false end
  end.
(** flatten_fragments.rs:438-460; [None] when the fragment must be wrapped *)
Fixpoint merge_directives (outer own : list directive) : option (list directive) :=
  match outer with
  | [] => Some []
  | d :: outer' =>
      match find (fun x => String.eqb (d_name x) (d_name d)) own with
      | Some x => if directive_eqb x d then merge_directives outer' own else None
      | None => match merge_directives outer' own with Some r => Some (d :: r) | None => None end
      end
  end.
Definition is_field (s : nsel) : bool := match s with NField _ _ _ _ _ => true | _ => false end.
Section Expand.
Context (handle : string -> tdef -> list nsel -> res (list nsel)).
(** flatten_fragments.rs:346-524, for one object type *)
Definition frags_for (obj : string) (items : list nsel) : list (list directive * list nsel) :=
  flat_map (fun s => match s with
                     | NInline tc dirs sub => if applies_to_object tc obj then [(dirs, sub)] else []
                     | _ => []
                     end) items.
Definition unless_empty (l : list nsel) (s : nsel) : list nsel := if empty l then [] else [s].
Fixpoint each_sub (k : list directive * list nsel -> res (list nsel)) (l : list (list directive * list nsel))
    : res (list nsel) :=
  match l with
  | [] => Ok []
  | s :: l' => bind (k s) (fun a => bind (each_sub k l') (fun b => Ok (a ++ b)))
  end.
Definition expand_for (dirs : list directive) (items : list nsel) (obj : string) : res (list nsel) :=
  bind (get_type sc obj) (fun d =>
  let inherited := filter is_field items in
  let subs := frags_for obj items in
  if existsb (fun s => negb (empty (fst s))) subs
  then bind (handle obj d inherited) (fun l =>
       bind (each_sub (fun '(own, sub) =>
               bind (handle obj d sub) (fun sub' =>
               Ok (unless_empty sub'
                     (match merge_directives dirs own with
                      | Some more => NInline (Some obj) (own ++ more) sub'
                      | None => NInline (Some obj) dirs [NInline (Some obj) own sub']
                      end)))) subs)
         (fun ls => Ok (unless_empty l (NInline (Some obj) dirs l) ++ ls)))
  else bind (handle obj d (inherited ++ flat_map snd subs)) (fun l =>
         Ok (unless_empty l (NInline (Some obj) (dirs ++ flat_map fst subs) l)))).
Fixpoint each_obj (k : string -> res (list nsel)) (l : list string) : res (list nsel) :=
  match l with
  | [] => Ok []
  | s :: l' => bind (k s) (fun a => bind (each_obj k l') (fun b => Ok (a ++ b)))
  end.
(** flatten_fragments.rs:318-345 *)
Definition possible_or_err (t : string) : res (list string) :=
  match possible_types sc t with Some ts => Ok ts | None => Err (EPossible t) end.
Definition expand_abstract (pname : string) (p : tdef) (tc : string) (dirs : list directive) (items : list nsel)
    : res (list nsel) :=
  bind (possible_or_err tc) (fun ts =>
  bind (if is_abstract p then possible_or_err pname else Ok [pname]) (fun ps =>
  each_obj (expand_for dirs items) (sort_by id (filter (fun t => existsb (String.eqb t) ps) ts)))).
(** flatten_fragments.rs:269-316 *)
Definition expand_condition (pname : string) (p : tdef) (tc : string) (dirs : list directive) (items : list nsel)
    : res (list nsel) :=
  bind (get_type sc tc) (fun d =>
  if is_abstract d then expand_abstract pname p tc dirs items
  else if is_object d
       then if is_object p && negb (String.eqb pname tc) then Ok []
            else bind (handle tc d items) (fun items' => Ok [NInline (Some tc) dirs items'])
       else Ok []).
(** flatten_fragments.rs:144-267 *)
Definition flatten_sel (pname : string) (p : tdef) (s : nsel) : res (list nsel) :=
  match s with
  | NField al n args dirs sub =>
      if introspective n || empty sub then Ok [s]
      else bind (field_type pname p n) (fun t => bind (get_type sc t) (fun d =>
           bind (handle t d sub) (fun sub' => Ok [NField al n args dirs sub'])))
  | NSpread _ _ => Ok []
  | NInline tc dirs sub =>
      match tc with
      | Some c =>
          if String.eqb c pname
          then bind (handle pname p sub) (fun sub' => Ok (if empty dirs then sub' else [NInline tc dirs sub']))
          else expand_condition pname p c dirs sub
      | None =>
          bind (handle pname p sub) (fun sub' =>
            if empty dirs then Ok sub'
            else if is_abstract p then expand_abstract pname p pname dirs sub'
                 else Ok [NInline (Some pname) dirs sub'])
      end
  end.
End Expand.
Fixpoint flatten (fuel : nat) (pname : string) (p : tdef) (l : list nsel) : res (list nsel) :=
  match fuel with
  | O => Err EFuel
  | S fuel' => each (flatten_sel (flatten fuel') pname p) l
  end.

(** * type_expand.rs:121-371.  Whether the fields of an interface are looked up in its object types
    (lines 245-330) depends on the federation directives and is left open. *)
Context (should_expand : string -> string -> bool).
(** type_expand.rs:129-150 *)
Fixpoint all_objects (ts : list string) : res unit :=
  match ts with
  | [] => Ok tt
  | t :: ts' => match kget t sc with Some (DObject _ _) => all_objects ts' | _ => Err (EType t) end
  end.
Definition expansion (pname : string) (p : tdef) : res (option (list string)) :=
  match p with
  | DInterface _ => bind (possible_or_err pname) (fun ts => bind (all_objects ts) (fun _ => Ok (Some ts)))
  | _ => Ok None
  end.
Definition object_fields (t : string) : list (string * string) :=
  match kget t sc with Some d => fields_of d | None => [] end.
Fixpoint expand_sel (pname : string) (p : tdef) (objs : option (list string)) (s : nsel) : res (list nsel) :=
  let all := fun pname' p' l => bind (expansion pname' p') (fun objs' => each (expand_sel pname' p' objs') l) in
  match s with
  | NField al n args dirs sub =>
      if introspective n then Ok [s]
      else bind (field_type pname p n) (fun t =>
        match (if should_expand pname n then objs else None) with
        | Some ts =>
            each_obj (fun obj =>
              bind (if empty sub then Ok sub
                    else match kget n (object_fields obj) with
                         | Some u => bind (get_type sc u) (fun d => all u d sub)
                         | None => Ok sub
                         end)
                   (fun sub' => Ok [NInline (Some obj) dirs [NField al n args dirs sub']])) (sort_by id ts)
        | None =>
            if empty sub then Ok [s]
            else bind (get_type sc t) (fun d => bind (all t d sub) (fun sub' => Ok [NField al n args dirs sub']))
        end)
  | NInline tc dirs sub =>
      match tc with
      | Some c => match kget c sc with
                  | Some d => bind (all c d sub) (fun sub' => Ok [NInline tc dirs sub'])
                  | None => Ok [s]
                  end
      | None => bind (all pname p sub) (fun sub' => Ok [NInline tc dirs sub'])
      end
  | NSpread _ _ => Ok [s]
  end.
Definition type_expand (pname : string) (p : tdef) (l : list nsel) : res (list nsel) :=
  bind (expansion pname p) (fun objs => each (expand_sel pname p objs) l).

(** * merge_inline_fragments.rs:75-211 *)
Definition tc_eqb (a b : option string) : bool :=
  match a, b with Some x, Some y => String.eqb x y | None, None => true | _, _ => false end.
Definition can_flatten (tc : option string) (dirs : list directive) (tc' : option string) (dirs' : list directive) : bool :=
  tc_eqb tc' tc && (empty dirs' || directives_eqb dirs' dirs).
Definition flatten_redundant (tc : option string) (dirs : list directive) (items : list nsel) : list nsel :=
  flat_map (fun s => match s with
                     | NInline tc' dirs' sub' => if can_flatten tc dirs tc' dirs' then sub' else [s]
                     | _ => [s]
                     end) items.
(** The first kept fragment with the same condition gets the selections and is handled again. *)
Fixpoint merge_into (handle : list nsel -> res (list nsel)) (tc : option string) (dirs : list directive) (items : list nsel)
    (acc : list nsel) : res (list nsel) :=
  match acc with
  | [] => Ok [NInline tc dirs items]
  | NInline tc' dirs' items' :: acc' =>
      if tc_eqb tc tc' && directives_eqb dirs dirs'
      then bind (handle (items' ++ items)) (fun l => Ok (NInline tc' dirs' l :: acc'))
      else bind (merge_into handle tc dirs items acc') (fun r => Ok (NInline tc' dirs' items' :: r))
  | s :: acc' => bind (merge_into handle tc dirs items acc') (fun r => Ok (s :: r))
  end.
Definition child_type (pname : string) (p : tdef) (tc : option string) : string * tdef :=
  match tc with
  | Some c => match kget c sc with Some d => (c, d) | None => (pname, p) end
  | None => (pname, p)
  end.
Fixpoint merge_inline_loop (handle : string -> tdef -> list nsel -> res (list nsel)) (pname : string) (p : tdef)
    (acc l : list nsel) : res (list nsel) :=
  match l with
  | [] => Ok acc
  | s :: l' =>
      bind (match s with
            | NField al n args dirs sub =>
                if introspective n || empty sub then Ok (acc ++ [s])
                else bind (field_type pname p n) (fun t => bind (get_type sc t) (fun d =>
                     bind (handle t d sub) (fun sub' => Ok (acc ++ [NField al n args dirs sub']))))
            | NInline tc dirs sub =>
                let '(cname, c) := child_type pname p tc in
                bind (handle cname c sub) (fun sub' =>
                merge_into (handle cname c) tc dirs (flatten_redundant tc dirs sub') acc)
            | NSpread _ _ => Ok acc
            end) (fun acc' => merge_inline_loop handle pname p acc' l')
  end.
Fixpoint merge_inline (fuel : nat) (pname : string) (p : tdef) (l : list nsel) : res (list nsel) :=
  match fuel with
  | O => Err EFuel
  | S fuel' => merge_inline_loop (merge_inline fuel') pname p [] l
  end.

(** * flatten_matching_object_fragments.rs:78-164 and matching_object_fragment.rs *)
Definition is_typename (s : nsel) : bool :=
  match s with NField _ n _ _ _ => String.eqb n "__typename" | _ => false end.
Definition flatten_matching (obj : string) (items : list nsel) : list nsel :=
  flat_map (fun s => match s with
                     | NInline tc dirs sub =>
                         if empty dirs && opt_is tc obj && negb (existsb is_typename sub) then sub else [s]
                     | _ => [s]
                     end) items.
Definition each_one (k : nsel -> res nsel) : list nsel -> res (list nsel) :=
  fix each_one (l : list nsel) :=
    match l with
    | [] => Ok []
    | s :: l' => bind (k s) (fun a => bind (each_one l') (fun b => Ok (a :: b)))
    end.
Fixpoint flatten_objects_sel (pname : string) (p : tdef) (s : nsel) : res nsel :=
  let all := fun pname' p' => each_one (flatten_objects_sel pname' p') in
  match s with
  | NField al n args dirs sub =>
      if introspective n || empty sub then Ok s
      else bind (field_type pname p n) (fun t => bind (get_type sc t) (fun d =>
           bind (all t d sub) (fun sub' =>
           Ok (NField al n args dirs (if is_object d then flatten_matching t sub' else sub')))))
  | NInline tc dirs sub =>
      let '(cname, c) := child_type pname p tc in
      bind (all cname c sub) (fun sub' => Ok (NInline tc dirs sub'))
  | NSpread _ _ => Ok s
  end.
Definition flatten_objects (pname : string) (p : tdef) : list nsel -> res (list nsel) :=
  each_one (flatten_objects_sel pname p).
End Schema.

(** * merge_fields.rs:33-101 *)
Definition args_eqb : list (string * gvalue) -> list (string * gvalue) -> bool :=
  list_eqb (fun x y => String.eqb (fst x) (fst y) && gvalue_eqb (snd x) (snd y)).
Definition fields_equal (al al' : option string) (n n' : string) (args args' : list (string * gvalue))
    (dirs dirs' : list directive) : bool :=
  tc_eqb al al' && String.eqb n n' && args_eqb args args' && directives_eqb dirs dirs'.
Fixpoint merge_field_into (handle : list nsel -> res (list nsel)) (al : option string) (n : string)
    (args : list (string * gvalue)) (dirs : list directive) (sub : list nsel) (acc : list nsel) : res (list nsel) :=
  match acc with
  | [] => Ok [NField al n args dirs sub]
  | NField al' n' args' dirs' sub' :: acc' =>
      if fields_equal al al' n n' args args' dirs dirs'
      then bind (handle (sub' ++ sub)) (fun l => Ok (NField al' n' args' dirs' l :: acc'))
      else bind (merge_field_into handle al n args dirs sub acc') (fun r => Ok (NField al' n' args' dirs' sub' :: r))
  | s :: acc' => bind (merge_field_into handle al n args dirs sub acc') (fun r => Ok (s :: r))
  end.
Fixpoint merge_fields_loop (handle : list nsel -> res (list nsel)) (acc l : list nsel) : res (list nsel) :=
  match l with
  | [] => Ok acc
  | s :: l' =>
      bind (match s with
            | NField al n args dirs sub =>
                bind (handle sub) (fun sub' => merge_field_into handle al n args dirs sub' acc)
            | NInline tc dirs sub => bind (handle sub) (fun sub' => Ok (acc ++ [NInline tc dirs sub']))
            | NSpread _ _ => Ok acc
            end) (fun acc' => merge_fields_loop handle acc' l')
  end.
Fixpoint merge_fields (fuel : nat) (l : list nsel) : res (list nsel) :=
  match fuel with
  | O => Err EFuel
  | S fuel' => merge_fields_loop (merge_fields fuel') [] l
  end.

(** * drop_duplicated_fields.rs:38-102; the selections of fields are not entered, and a fragment's
    only when the set has at least two items. *)
Definition shallow_equal (a b : nsel) : bool :=
  match a, b with
  | NField al n args dirs sub, NField al' n' args' dirs' sub' =>
      String.eqb n n' && tc_eqb al al' && args_eqb args args' && directives_eqb dirs dirs' && (empty sub && empty sub')
  | _, _ => false
  end.
Fixpoint drop_dup_sel (s : nsel) : nsel :=
  match s with
  | NInline tc dirs sub =>
      NInline tc dirs
        (match sub with
         | [] | [_] => sub
         | _ => (fix go (acc l : list nsel) : list nsel :=
                   match l with
                   | [] => acc
                   | x :: l' => go (if existsb (shallow_equal x) acc then acc else acc ++ [drop_dup_sel x]) l'
                   end) [] sub
         end)
  | _ => s
  end.
Definition drop_duplicated (l : list nsel) : list nsel :=
  match l with
  | [] | [_] => l
  | _ => fold_left (fun acc x => if existsb (shallow_equal x) acc then acc else acc ++ [drop_dup_sel x]) l []
  end.

(** * normalization/mod.rs:27-57 *)
Section Pipeline.
Context (sc : schema) (should_expand : string -> string -> bool) (root_type : opkind -> option string) (fuel : nat).
Definition map_sels (k : list nsel -> list nsel) (d : ndef) : ndef :=
  match d with NOp o n s => NOp o n (k s) | NFrag n t s => NFrag n t (k s) end.
Definition on_op (k : string -> tdef -> list nsel -> res (list nsel)) (d : ndef) : res ndef :=
  match d with
  | NFrag _ _ _ => Ok d
  | NOp o n s =>
      match root_type o with
      | None => Err (EOperation None)
      | Some t => bind (get_type sc t) (fun td => bind (k t td s) (fun s' => Ok (NOp o n s')))
      end
  end.
Definition normalize (operation_name : option string) (ds : list ndef) : res (list ndef) :=
  bind (drop_unused operation_name ds) (fun ds =>
  let ds := map (map_sels drop_skipped) ds in
  let ds := map (map_sels normalize_fields) ds in
  bind (inline_doc ds) (fun ds =>
  let ds := drop_fragments ds in
  bind (each_def (on_op (flatten sc fuel)) ds) (fun ds =>
  bind (each_def (on_op (type_expand sc should_expand)) ds) (fun ds =>
  bind (each_def (on_op (merge_inline sc fuel)) ds) (fun ds =>
  bind (each_def (on_op (flatten_objects sc)) ds) (fun ds =>
  bind (each_def (on_op (fun _ _ => merge_fields fuel)) ds) (fun ds =>
  Ok (map (map_sels drop_duplicated) ds)))))))).
End Pipeline.
