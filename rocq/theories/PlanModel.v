(** Building the response plan of an operation, and nulling the selections a client may not see.
    Models bin/router/src/executor/projection/plan.rs:231-517, 665-767, 824-1027 and
    bin/router/src/pipeline/nullify/rebuilder.rs:138-205. *)
From Coq Require Import String List Bool Arith.
From Verif Require Import StrOrd JsonModel Ast ProjModel TrieModel.
Import ListNotations.
Local Open Scope string_scope.
Local Open Scope list_scope.

(** [BSpread]: the [unreachable!] of plan.rs:299-304. *)
Inductive berr := BSpread | BFuel.
Inductive bres (A : Type) := BOk (a : A) | BErr (e : berr).
Arguments BOk {A}. Arguments BErr {A}.
Definition bbind {A B} (r : bres A) (k : A -> bres B) : bres B := match r with BOk a => k a | BErr e => BErr e end.

(** [SelectionVariants], plan.rs:121: an index map *)
Definition variants := list (string * list plan).
Definition with_value (p : plan) (v : source plan) : plan := let 'Plan f k t n g c _ := p in Plan f k t n g c v.
Definition with_cond (p : plan) (c : option cond) : plan := let 'Plan f k t n g _ v := p in Plan f k t n g c v.
Definition reguard (g : option tcond) (p : plan) : plan := let 'Plan f k t n _ c v := p in Plan f k t n g c v.

Section Build.
Variable M : meta.
(** the iteration order of a [HashSet] *)
Variable order : sset -> list string.

Definition field_info (t f : string) : option (string * nshape) :=
  match m_fields M t with Some fs => fs f | None => None end.
(** plan.rs:446-451 *)
Definition names_of (g : tcond) : list string := match g with TExact t => [t] | TOneOf ts => order ts end.
Definition output_name (f t : string) : option string :=
  match field_info t f with Some (o, _) => Some o | None => None end.
Fixpoint first_some {A B} (f : A -> option B) (l : list A) : option B :=
  match l with [] => None | x :: l' => match f x with Some y => Some y | None => first_some f l' end end.
(** [field_output_type], plan.rs:423-443 *)
Definition field_output (parent : string) (g : option tcond) (f : string) : option string :=
  if String.eqb f "__typename" then None
  else match g with
       | Some g => first_some (output_name f) (names_of g)
       | None => output_name f parent
       end.

Section Merge.
(** [merge_matching] *)
Variable mm : plan -> plan -> string -> bres plan.
(** [merge_plan], plan.rs:665-685 *)
Fixpoint merge_variant (vs : list plan) (p : plan) (parent : string) : bres (list plan) :=
  match vs with
  | [] => BOk [p]
  | v :: vs' =>
      if guard_eqb (p_guard v) (p_guard p) then bbind (mm v p parent) (fun v' => BOk (v' :: vs'))
      else bbind (merge_variant vs' p parent) (fun r => BOk (v :: r))
  end.
Fixpoint merge_plan (fs : variants) (p : plan) (parent : string) : bres variants :=
  match fs with
  | [] => BOk [(p_key p, [p])]
  | (k, vs) :: fs' =>
      if String.eqb (p_key p) k then bbind (merge_variant vs p parent) (fun vs' => BOk ((k, vs') :: fs'))
      else bbind (merge_plan fs' p parent) (fun r => BOk ((k, vs) :: r))
  end.
Fixpoint merge_plans (fs : variants) (ps : list plan) (parent : string) : bres variants :=
  match ps with
  | [] => BOk fs
  | p :: ps' => bbind (merge_plan fs p parent) (fun fs' => merge_plans fs' ps' parent)
  end.
(** [merge_variants_for_type], plan.rs:396-421 *)
Fixpoint merge_for_type (acc : option plan) (vs : list plan) (t parent : string) : bres (option plan) :=
  match vs with
  | [] => BOk acc
  | v :: vs' =>
      if match p_guard v with None => true | Some g => tmatches g t end
      then let scoped := reguard (Some (TExact t)) v in
           match acc with
           | None => merge_for_type (Some scoped) vs' t parent
           | Some e => bbind (mm e scoped parent) (fun e' => merge_for_type (Some e') vs' t parent)
           end
      else merge_for_type acc vs' t parent
  end.
Fixpoint for_types (vs : list plan) (ts : list string) (parent : string) : bres (list plan) :=
  match ts with
  | [] => BOk []
  | t :: ts' =>
      bbind (merge_for_type None vs t parent) (fun m =>
      bbind (for_types vs ts' parent) (fun r => BOk (match m with Some p => p :: r | None => r end)))
  end.
(** plan.rs:352-356 *)
Definition exclusive (vs : list plan) : bool :=
  Nat.eqb (length vs) 1 || forallb (fun v => match p_guard v with Some (TExact _) => true | _ => false end) vs.
(** [resolve_variants], plan.rs:337-391; the sorted possible types that are objects *)
Definition concrete (parent : string) : list string := filter (m_object M) (m_possible M parent).
Fixpoint resolve (fs : variants) (parent : string) : bres (list plan) :=
  match fs with
  | [] => BOk []
  | (_, vs) :: fs' =>
      bbind (if exclusive vs then BOk vs else for_types vs (concrete parent) parent) (fun a =>
      bbind (resolve fs' parent) (fun b => BOk (a ++ b)))
  end.
End Merge.

(** plan.rs:722-729: [entry(key).or_default().push(child)] *)
Fixpoint push (fs : variants) (p : plan) : variants :=
  match fs with
  | [] => [(p_key p, [p])]
  | (k, vs) :: fs' => if String.eqb (p_key p) k then (k, vs ++ [p]) :: fs' else (k, vs) :: push fs' p
  end.
Definition group (ps : list plan) : variants := fold_left push ps [].

(** [merge_matching], plan.rs:689-767 *)
Fixpoint merge_matching (fuel : nat) (e n : plan) (parent : string) : bres plan :=
  match fuel with
  | O => BErr BFuel
  | S fuel' =>
      let c := merge_conditions (p_guard e) (p_cond e) (p_guard e) (p_cond n) in
      let child := match field_output parent (p_guard e) (p_field e) with Some o => o | None => parent end in
      bbind (match p_val e, p_val n with
             | SData old, SData new =>
                 match new, old with
                 | None, _ => BOk (SData old)
                 | Some new, None => BOk (SData (Some new))
                 | Some new, Some old =>
                     bbind (merge_plans (merge_matching fuel') (group old) new child) (fun fs =>
                     bbind (resolve (merge_matching fuel') fs child) (fun l => BOk (SData (Some l))))
                 end
             | _, _ => BOk SNull
             end) (fun v => BOk (with_value (with_cond e c) v))
  end.

(** plan.rs:860-871, 985-994 *)
Definition field_condition (t : string) : tcond :=
  if m_object M t || m_scalar M t then TExact t else TOneOf (m_possible M t).
Definition fragment_condition (t : string) : tcond :=
  if m_object M t then TExact t else TOneOf (m_possible M t).
Definition response_key (name : string) (alias : option string) : string :=
  match alias with Some a => a | None => name end.
(** plan.rs:875-889 *)
Definition child_condition (pc : option cond) (t : string) (inc skip : option string) : option cond :=
  let inherited := match pc with Some c => child_conditions c | None => None end in
  let guard := match pc with Some c => get_type_guard c | None => None end in
  apply_directives (and_optional inherited (match guard with Some _ => Some (CParent (field_condition t)) | None => None end))
    inc skip.
(** plan.rs:891-922 *)
Definition own_condition (pc : option cond) (t : string) (inc skip : option string) : option cond :=
  let guard := match pc with Some c => get_type_guard c | None => None end in
  let c := if m_union M t || m_interface M t then and_optional pc (Some (CField (field_condition t))) else pc in
  let c := apply_directives c inc skip in
  let c := match m_enum M t with Some vs => and_optional c (Some (CEnum vs)) | None => c end in
  match c with Some c => simplify c guard | None => None end.
(** plan.rs:996-1007 *)
Definition inner_condition (pc : option cond) (t : string) (inc skip : option string) : option cond :=
  apply_directives (and_optional pc (Some (CParent (fragment_condition t)))) inc skip.
(** plan.rs:924-931 *)
Definition only_omitted (sub : list sel) : bool :=
  match sub with [SField _ _ _ _ _ true _] => true | _ => false end.

Section From.
Variable mm : plan -> plan -> string -> bres plan.
(** [process_field] and [process_inline_fragment], plan.rs:824-1027 *)
Fixpoint process (s : sel) (parent : string) (pc : option cond) (fs : variants) {struct s} : bres variants :=
  let from_set := fun (sub : list sel) (parent : string) (pc : option cond) =>
    bbind ((fix each (l : list sel) (fs : variants) : bres variants :=
              match l with [] => BOk fs | x :: l' => bbind (process x parent pc fs) (each l') end) sub [])
      (fun fs => bbind (resolve mm fs parent) (fun l => BOk (match l with [] => None | _ => Some l end))) in
  match s with
  | SField name alias _ inc skip _ sub =>
      match (if String.eqb name "__typename" then Some ("String", NLeaf true) else field_info parent name) with
      | None => BOk fs
      | Some (t, nl) =>
          bbind (if only_omitted sub then BOk (Some []) else from_set sub t (child_condition pc t inc skip)) (fun sels =>
          merge_plan mm fs
            (Plan name (response_key name alias) (String.eqb name "__typename") nl
                  (match pc with Some c => get_type_guard c | None => None end)
                  (own_condition pc t inc skip) (SData sels)) parent)
      end
  | SFrag t inc skip sub =>
      bbind (from_set sub t (inner_condition pc t inc skip)) (fun sels =>
      match sels with
      | None => BOk fs
      | Some l => merge_plans mm fs (map (reguard (Some (fragment_condition t))) l) parent
      end)
  | SSpread _ => BErr BSpread
  end.
(** [from_selection_set], plan.rs:271-319 *)
Definition from_set (sub : list sel) (parent : string) (pc : option cond) : bres (option (list plan)) :=
  bbind ((fix each (l : list sel) (fs : variants) : bres variants :=
            match l with [] => BOk fs | x :: l' => bbind (process x parent pc fs) (each l') end) sub [])
    (fun fs => bbind (resolve mm fs parent) (fun l => BOk (match l with [] => None | _ => Some l end))).
End From.

(** [remove_redundant_child_guards], plan.rs:464-517.  [g] is the guard the plan is left with. *)
Definition as_set (l : list string) : sset := fold_left (fun s x => sinsert x s) l [].
Fixpoint catalog {A B} (f : A -> option B) (l : list A) : list B :=
  match l with [] => [] | x :: l' => match f x with Some y => y :: catalog f l' | None => catalog f l' end end.
Definition redundant (g : tcond) (outputs : sset) : bool :=
  match g with
  | TExact t => Nat.eqb (length outputs) 1 && smem t outputs
  | TOneOf ts => Nat.eqb (length ts) (length outputs) && forallb (fun t => smem t outputs) ts
  end.
Definition child_guard (g : option tcond) (f : string) (child : plan) : option tcond :=
  match g, p_guard child with
  | Some g, Some cg => if redundant cg (as_set (catalog (output_name f) (names_of g))) then None else Some cg
  | _, cg => cg
  end.
Fixpoint prune (g : option tcond) (p : plan) {struct p} : plan :=
  match p with
  | Plan f k t n _ c v =>
      Plan f k t n g c
        (match v with
         | SData (Some l) => SData (Some (map (fun x => prune (child_guard g f x) x) l))
         | _ => v
         end)
  end.

Definition deepest (k : sel -> nat) (l : list sel) : nat := fold_right (fun x n => Nat.max (k x) n) O l.
Fixpoint sel_depth (s : sel) : nat :=
  match s with
  | SField _ _ _ _ _ _ sub => S (deepest sel_depth sub)
  | SFrag _ _ _ sub => deepest sel_depth sub
  | SSpread _ => O
  end.
(** [from_operation], plan.rs:233-264 *)
Definition from_operation (root : string) (sels : list sel) : bres (list plan) :=
  bbind (from_set (merge_matching (S (deepest sel_depth sels))) sels root None) (fun r =>
  BOk (match r with None => [] | Some l => map (fun p => prune (p_guard p) p) l end)).
End Build.

(** [rebuild_nulled_projection_plan_recursive], rebuilder.rs:149-205 *)
Definition scoped (t : trie) (pos : nat) (g : option tcond) : option nat :=
  match g with
  | Some (TExact n) => match find_segment t pos (SegFrag n) with Some (c, _) => Some c | None => None end
  | _ => Some pos
  end.
Fixpoint rebuild (t : trie) (pos : nat) (p : plan) {struct p} : plan :=
  match p with
  | Plan f k ty n g c v =>
      match scoped t pos g with
      | None => p
      | Some sp =>
          match find_segment t sp (SegField k) with
          | None => p
          | Some (_, true) => Plan f k ty n g c SNull
          | Some (child, false) =>
              Plan f k ty n g c
                (match v with
                 | SData (Some l) => SData (match map (rebuild t child) l with [] => None | l' => Some l' end)
                 | _ => v
                 end)
          end
      end
  end.
(** rebuilder.rs:139-145 *)
Definition rebuild_nulled_plan (t : trie) (ps : list plan) : list plan := map (rebuild t 0) ps.
