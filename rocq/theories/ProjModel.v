(** Response projection: the plan data structures, the algebra of conditions and the writer.
    Models bin/router/src/executor/projection/plan.rs:30-229 and
    bin/router/src/executor/projection/response.rs. *)
From Coq Require Import String List NArith ZArith Bool.
From Verif Require Import StrOrd StrUtil JsonModel JsonWriterModel.
Import ListNotations.
Local Open Scope string_scope.

(** ** Sets of names: [HashSet<String>] as a strictly sorted list, so that [==] is [=]. *)
Definition sset := list string.
Fixpoint sinsert (x : string) (s : sset) : sset :=
  match s with
  | [] => [x]
  | y :: r => match String.compare x y with
              | Lt => x :: s
              | Eq => s
              | Gt => y :: sinsert x r
              end
  end.
Definition smem (x : string) (s : sset) : bool := existsb (String.eqb x) s.
Definition sunion (a b : sset) : sset := fold_left (fun s x => sinsert x s) b a.
Definition sinter (a b : sset) : sset := filter (fun x => smem x b) a.
Definition sset_eqb (a b : sset) : bool := if list_eq_dec string_dec a b then true else false.

(** plan.rs:30-34 *)
Inductive tcond := TExact (t : string) | TOneOf (ts : sset).

(** [TypeCondition::matches], plan.rs:37-42 *)
Definition tmatches (c : tcond) (t : string) : bool :=
  match c with TExact e => String.eqb t e | TOneOf ts => smem t ts end.

(** [TypeCondition::union], plan.rs:44-66 *)
Definition tunion (a b : tcond) : tcond :=
  match a, b with
  | TExact l, TExact r => if String.eqb l r then TExact l else TOneOf (sinsert r (sinsert l []))
  | TOneOf ts, TExact e | TExact e, TOneOf ts => TOneOf (sinsert e ts)
  | TOneOf l, TOneOf r => TOneOf (sunion l r)
  end.

(** [TypeCondition::intersect], plan.rs:68-102 *)
Definition tintersect (a b : tcond) : tcond :=
  match a, b with
  | TExact l, TExact r => if String.eqb l r then TExact l else TOneOf []
  | TOneOf ts, TExact e | TExact e, TOneOf ts => if smem e ts then TExact e else TOneOf []
  | TOneOf l, TOneOf r =>
      match sinter l r with
      | [x] => TExact x
      | s => TOneOf s
      end
  end.

Definition tcond_eqb (a b : tcond) : bool :=
  match a, b with
  | TExact x, TExact y => String.eqb x y
  | TOneOf x, TOneOf y => sset_eqb x y
  | _, _ => false
  end.
Definition guard_eqb (a b : option tcond) : bool :=
  match a, b with
  | None, None => true
  | Some a, Some b => tcond_eqb a b
  | _, _ => false
  end.

(** plan.rs:154-163 *)
Inductive cond :=
| CInclude (v : string)
| CSkip (v : string)
| CParent (t : tcond)
| CField (t : tcond)
| CEnum (vs : sset)
| COr (a b : cond)
| CAnd (a b : cond).

Fixpoint cond_eqb (a b : cond) : bool :=
  match a, b with
  | CInclude x, CInclude y | CSkip x, CSkip y => String.eqb x y
  | CParent x, CParent y | CField x, CField y => tcond_eqb x y
  | CEnum x, CEnum y => sset_eqb x y
  | COr x y, COr z w | CAnd x y, CAnd z w => cond_eqb x z && cond_eqb y w
  | _, _ => false
  end.

(** [FieldProjectionCondition::and], plan.rs:181-200 *)
Definition cand (l r : cond) : cond :=
  match l, r with
  | CParent a, CParent b => CParent (tintersect a b)
  | CField a, CField b => CField (tintersect a b)
  | CEnum a, CEnum b => CEnum (sinter a b)
  | _, _ => CAnd l r
  end.

(** [FieldProjectionCondition::or], plan.rs:206-229 *)
Definition cor (l r : cond) : cond :=
  if cond_eqb l r then l
  else match l, r with
       | CParent a, CParent b => CParent (tunion a b)
       | CField a, CField b => CField (tunion a b)
       | CEnum a, CEnum b => CEnum (sunion a b)
       | _, _ => COr l r
       end.

(** [combine_optional] and its two uses, plan.rs:544-576 *)
Definition and_optional (l r : option cond) : option cond :=
  match l, r with
  | None, None => None
  | Some c, None | None, Some c => Some c
  | Some l, Some r => Some (cand l r)
  end.
Definition or_optional (l r : option cond) : option cond :=
  match l, r with
  | Some l, Some r => Some (cor l r)
  | _, _ => None
  end.

(** [apply_directive_conditions], plan.rs:519-542 *)
Definition apply_directives (c : option cond) (include_if skip_if : option string) : option cond :=
  let c := match include_if with Some v => and_optional c (Some (CInclude v)) | None => c end in
  match skip_if with Some v => and_optional c (Some (CSkip v)) | None => c end.

(** [conditions_for_child_selections], plan.rs:578-595 *)
Fixpoint child_conditions (c : cond) : option cond :=
  match c with
  | CInclude v => Some (CInclude v)
  | CSkip v => Some (CSkip v)
  | CAnd a b => and_optional (child_conditions a) (child_conditions b)
  | COr a b => or_optional (child_conditions a) (child_conditions b)
  | CParent _ | CField _ | CEnum _ => None
  end.

(** [condition_with_guard] / [condition_with_optional_guard], plan.rs:597-624 *)
Definition with_guard (g : option tcond) (c : option cond) : option cond :=
  match g with
  | None => c
  | Some g => Some (match c with Some c => cand (CParent g) c | None => CParent g end)
  end.

(** [merge_conditions], plan.rs:629-655 *)
Definition merge_conditions (lg : option tcond) (lc : option cond) (rg : option tcond) (rc : option cond) : option cond :=
  if guard_eqb lg rg then or_optional lc rc
  else or_optional (with_guard lg lc) (with_guard rg rc).

(** [simplify_condition], plan.rs:769-816 *)
Fixpoint simplify (c : cond) (g : option tcond) : option cond :=
  match g with
  | Some (TExact t) =>
      match c with
      | CParent (TExact u) => if String.eqb u t then None else Some c
      | CParent (TOneOf [u]) => if String.eqb u t then None else Some c
      | CAnd a b => and_optional (simplify a g) (simplify b g)
      | COr a b => or_optional (simplify a g) (simplify b g)
      | _ => Some c
      end
  | _ => Some c
  end.

(** [get_type_guard], plan.rs:1041-1058 *)
Fixpoint get_type_guard (c : cond) : option tcond :=
  match c with
  | CParent t => Some t
  | CAnd a b =>
      match get_type_guard a, get_type_guard b with
      | Some x, Some y => Some (tintersect x y)
      | Some x, None | None, Some x => Some x
      | None, None => None
      end
  | COr a b =>
      match get_type_guard a, get_type_guard b with
      | Some x, Some y => Some (tunion x y)
      | Some x, None | None, Some x => Some x
      | None, None => None
      end
  | _ => None
  end.

(** ** Plans *)
(** introspection/schema.rs:19-28 *)
Inductive nshape := NLeaf (non_null : bool) | NList (non_null : bool) (item : nshape).
Definition is_non_null (n : nshape) : bool := match n with NLeaf b => b | NList b _ => b end.
Definition list_item (n : nshape) : option nshape := match n with NLeaf _ => None | NList _ i => Some i end.

(** plan.rs:104-112 *)
Inductive source (A : Type) := SData (selections : option (list A)) | SNull.
Arguments SData {A}. Arguments SNull {A}.

(** plan.rs:124-136 *)
Inductive plan := Plan (field_name response_key : string) (is_typename : bool) (nullability : nshape)
                       (parent_type_guard : option tcond) (conditions : option cond) (val : source plan).

Definition p_field (p : plan) := let 'Plan f _ _ _ _ _ _ := p in f.
Definition p_key (p : plan) := let 'Plan _ k _ _ _ _ _ := p in k.
Definition p_typename (p : plan) := let 'Plan _ _ t _ _ _ _ := p in t.
Definition p_null (p : plan) := let 'Plan _ _ _ n _ _ _ := p in n.
Definition p_guard (p : plan) := let 'Plan _ _ _ _ g _ _ := p in g.
Definition p_cond (p : plan) := let 'Plan _ _ _ _ _ c _ := p in c.
Definition p_val (p : plan) := let 'Plan _ _ _ _ _ _ v := p in v.

(** introspection/schema.rs:67-78; lookups are functions. *)
Record meta := mkmeta {
  m_possible : string -> sset;               (* PossibleTypes::get_possible_types, includes the name itself *)
  m_enum : string -> option sset;
  m_fields : string -> option (string -> option (string * nshape));
  m_object : string -> bool;
  m_scalar : string -> bool;
  m_union : string -> bool;
  m_interface : string -> bool }.

(** ** The writer, projection/response.rs *)
Inductive perr := MissingType (t : string) | MissingField (f t : string).
Definition rname := (string + perr)%type.     (* TypeName::get *)

(** [check] results: plan.rs:165-171 *)
Inductive cres := COk | ESkip | EParent | EField | EEnum | EFatal (e : perr).

Section Run.
  (** [ryu::Buffer::format_finite] *)
  Variable ryu : N -> string.
  Variable M : meta.
  (** the variable is present and the boolean true *)
  Variable vtrue : string -> bool.

  (** [f64::is_finite] on the bit pattern *)
  Definition finite (bits : N) : bool := negb (N.eqb (N.land (N.shiftr bits 52) 2047) 2047).
  (** json_writer.rs:48-72 *)
  Definition f64_text (bits : N) : string := if finite bits then ryu bits else "null".
  Definition i64_text (z : Z) : string :=
    match z with
    | Z0 => "0"
    | Zpos p => N_to_dec (Npos p)
    | Zneg p => String (chr 45) (N_to_dec (Npos p))
    end.

  (** [serialize_value_to_buffer], response.rs:169-206 *)
  Fixpoint serialize (v : value) (buf : string) : string :=
    match v with
    | VNull => buf ++ "null"
    | VBool true => buf ++ "true"
    | VBool false => buf ++ "false"
    | VU64 n => buf ++ N_to_dec n
    | VI64 z => buf ++ i64_text z
    | VF64 b => buf ++ f64_text b
    | VStr s => buf ++ quoted s
    | VRaw s => buf ++ s
    | VObj o =>
        (fix members (first : bool) (o : list (string * value)) (buf : string) : string :=
           match o with
           | [] => buf
           | kv :: o' =>
               let buf := if first then buf else buf ++ "," in
               let buf := buf ++ quoted (fst kv) in
               let buf := buf ++ ":" in
               members false o' (serialize (snd kv) buf)
           end) true o (buf ++ "{") ++ "}"
    | VArr l =>
        (fix items (first : bool) (l : list value) (buf : string) : string :=
           match l with
           | [] => buf
           | x :: l' =>
               let buf := if first then buf else buf ++ "," in
               items false l' (serialize x buf)
           end) true l (buf ++ "[") ++ "]"
    end.

  (** [resolve_type_name], response.rs:569-604.  Binary search over the sorted object is [get]. *)
  Definition resolve_type_name (p : plan) (v : option value) (parent : rname) : rname :=
    if p_typename p then inl "String"
    else
      match (match v with
             | Some (VObj o) => match get "__typename" o with Some (VStr s) => Some s | _ => None end
             | _ => None
             end) with
      | Some t => inl t
      | None =>
          match parent with
          | inr e => inr e
          | inl pt =>
              match m_fields M pt with
              | None => inr (MissingType pt)
              | Some fs => match fs (p_field p) with
                           | Some (t, _) => inl t
                           | None => inr (MissingField (p_field p) pt)
                           end
              end
          end
      end.

  (** [check], response.rs:467-562 *)
  Fixpoint check (c : cond) (parent field : rname) (v : option value) : cres :=
    match c with
    | CAnd a b => match check a parent field v with COk => check b parent field v | e => e end
    | COr a b => match check a parent field v with COk => COk | _ => check b parent field v end
    | CInclude x => if vtrue x then COk else ESkip
    | CSkip x => if vtrue x then ESkip else COk
    | CParent t => match parent with
                   | inr e => EFatal e
                   | inl n => if tmatches t n then COk else EParent
                   end
    | CField t => match field with
                  | inr e => EFatal e
                  | inl n => if tmatches t n then COk else EField
                  end
    | CEnum vs => match v with
                  | Some (VStr s) => if smem s vs then COk else EEnum
                  | _ => COk
                  end
    end.

  (** Result of [project_selection_set]: does the null propagate, the buffer, the errors. *)
  Inductive outcome := Done (propagate : bool) (buf : string) (errs : list string) | Fail (e : perr).
  (** Result of [project_selection_set_with_map]: also the [first] flag. *)
  Inductive mout := MDone (propagate first : bool) (buf : string) (errs : list string) | MFail (e : perr).

  (** [Vec::truncate] *)
  Definition truncate (n : nat) (buf : string) : string := take_str n buf.

  Definition enum_error : string := "Value is not a valid enum value".
  Definition key_prefix (p : plan) (first : bool) (buf : string) : string :=
    (if first then buf ++ "{" else buf ++ ",") ++ String (chr 34) (p_key p ++ String (chr 34) ":").

  Section WithMap.
    Variable proj : plan -> value -> nshape -> rname -> string -> list string -> outcome.
    (** [project_selection_set_with_map], response.rs:318-464 *)
    Fixpoint with_map (o : list (string * value)) (pt : rname) (ps : list plan)
             (first : bool) (buf : string) (errs : list string) : mout :=
      match ps with
      | [] => MDone false first buf errs
      | p :: ps' =>
          match (match p_guard p with
                 | None => inl true
                 | Some g => match pt with inl n => inl (tmatches g n) | inr e => inr e end
                 end) with
          | inr e => MFail e
          | inl false => with_map o pt ps' first buf errs
          | inl true =>
              let v := get (p_key p) o in
              match (match p_cond p with
                     | None => COk
                     | Some c => check c pt (resolve_type_name p v pt) v
                     end) with
              | EFatal e => MFail e
              | ESkip | EParent => with_map o pt ps' first buf errs
              | EEnum =>
                  let buf := key_prefix p first buf ++ "null" in
                  let errs := (errs ++ [enum_error])%list in
                  if is_non_null (p_null p) then MDone true false buf errs
                  else with_map o pt ps' false buf errs
              | EField =>
                  let buf := key_prefix p first buf ++ "null" in
                  if is_non_null (p_null p) then MDone true false buf errs
                  else with_map o pt ps' false buf errs
              | COk =>
                  let buf := key_prefix p first buf in
                  match (match p_val p with
                         | SNull => Done true (buf ++ "null") errs
                         | SData _ =>
                             if p_typename p then
                               match pt with
                               | inr e => Fail e
                               | inl n => Done false (buf ++ String (chr 34) (n ++ String (chr 34) "")) errs
                               end
                             else match v with
                                  | Some v => proj p v (p_null p) pt buf errs
                                  | None => Done true (buf ++ "null") errs
                                  end
                         end) with
                  | Fail e => MFail e
                  | Done prop buf errs =>
                      if prop && is_non_null (p_null p) then MDone true false buf errs
                      else with_map o pt ps' false buf errs
                  end
              end
          end
      end.
  End WithMap.

  (** [project_selection_set], response.rs:209-314 *)
  Fixpoint project (p : plan) : value -> nshape -> rname -> string -> list string -> outcome :=
    fix on_data (d : value) (nul : nshape) (pt : rname) (buf : string) (errs : list string) {struct d} : outcome :=
      match d with
      | VArr l =>
          let checkpoint := String.length buf in
          let item := list_item nul in
          let item_non_null := match item with Some i => is_non_null i | None => false end in
          (fix items (first : bool) (l : list value) (buf : string) (errs : list string) : outcome :=
             match l with
             | [] => Done false (buf ++ "]") errs
             | x :: l' =>
                 let buf := if first then buf else buf ++ "," in
                 match on_data x (match item with Some i => i | None => nul end) pt buf errs with
                 | Fail e => Fail e
                 | Done prop buf errs =>
                     if prop && item_non_null then Done true (truncate checkpoint buf ++ "null") errs
                     else items false l' buf errs
                 end
             end) true l (buf ++ "[") errs
      | VObj o =>
          match p with
          | Plan _ _ _ _ _ _ v =>
              match v with
              | SData (Some sels) =>
                  let checkpoint := String.length buf in
                  match with_map project o (resolve_type_name p (Some d) pt) sels true buf errs with
                  | MFail e => Fail e
                  | MDone true _ buf errs => Done true (truncate checkpoint buf ++ "null") errs
                  | MDone false first buf errs => Done false (buf ++ (if first then "{}" else "}")) errs
                  end
              | SData None => Done false (serialize d buf) errs
              | SNull => Done true (buf ++ "null") errs
              end
          end
      | VNull => Done true (buf ++ "null") errs
      | _ => Done false (serialize d buf) errs
      end.

  (** [project_by_operation], response.rs:95-167.  [errs_json] and [ext_json] are the
      [sonic_rs] serializations of the final error list and of the extensions. *)
  Variable errs_json : list string -> string.
  Definition project_by_operation (d : value) (errs : list string) (ext_json : option string)
             (root : string) (ps : list plan) : (string * list string) + perr :=
    let buf := "{" ++ String (chr 34) ("data" ++ String (chr 34) ":") in
    match (match d with
           | VObj o =>
               let checkpoint := String.length buf in
               match with_map project o (inl root) ps true buf errs with
               | MFail e => inr e
               | MDone true _ buf errs => inl (truncate checkpoint buf ++ "null", errs)
               | MDone false first buf errs => inl (buf ++ (if first then "{}" else "}"), errs)
               end
           | _ => inl (buf ++ "null", errs)
           end) with
    | inr e => inr e
    | inl (buf, errs) =>
        let buf := match errs with
                   | [] => buf
                   | _ => buf ++ "," ++ String (chr 34) ("errors" ++ String (chr 34) ":") ++ errs_json errs
                   end in
        let buf := match ext_json with
                   | None => buf
                   | Some e => buf ++ "," ++ String (chr 34) ("extensions" ++ String (chr 34) ":") ++ e
                   end in
        inl (buf ++ "}", errs)
    end.
End Run.
