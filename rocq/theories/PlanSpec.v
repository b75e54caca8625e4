(** Specification of the response plan: which fields an operation selects on an object, by the
    type of the object, as in CollectFields of the GraphQL specification (section 6.3.2). *)
From Coq Require Import String List Bool.
From Verif Require Import StrOrd JsonModel Ast ProjModel TrieModel.
Import ListNotations.
Local Open Scope string_scope.
Local Open Scope list_scope.

(** A step into a response: the type of the object, the response key and the field it answers. *)
Definition step : Type := string * string * string.

(** *** What an operation selects *)
Section Selects.
Variable M : meta.
(** whether a selection with these [@include] and [@skip] variables takes part *)
Variable part : option string -> option string -> Prop.

Inductive collected (T : string) : list sel -> string -> string -> list sel -> Prop :=
| col_field l n a args i s sub k :
    In (SField n a args i s false sub) l -> part i s ->
    k = (match a with Some a => a | None => n end) -> collected T l k n sub
| col_frag l t i s sub k f sub' :
    In (SFrag t i s sub) l -> part i s -> In T (m_possible M t) ->
    collected T sub k f sub' -> collected T l k f sub'.

(** [picks l path]: the selections [l] reach the field at the end of [path]. *)
Fixpoint picks (path : list step) (l : list sel) : Prop :=
  match path with
  | [] => True
  | (T, k, f) :: path' => exists sub, collected T l k f sub /\ picks path' sub
  end.
End Selects.

Definition included (vt : string -> bool) (i s : option string) : Prop :=
  match i with Some v => vt v = true | None => True end /\ match s with Some v => vt v = false | None => True end.
Definition selects M vt := picks M (included vt).
Definition mentions M := picks M (fun _ _ => True).

(** *** What a plan shows *)
Definition opens (g : option tcond) (T : string) : Prop :=
  match g with None => True | Some (TExact t) => T = t | Some (TOneOf ts) => In T ts end.
(** Conditions on the type of the data, or its enum values, are about malformed data. *)
Fixpoint met (vt : string -> bool) (c : cond) (T : string) : Prop :=
  match c with
  | CInclude v => vt v = true
  | CSkip v => vt v = false
  | CParent t => opens (Some t) T
  | CField _ | CEnum _ => True
  | COr a b => met vt a T \/ met vt b T
  | CAnd a b => met vt a T /\ met vt b T
  end.
Definition met_opt vt (c : option cond) T : Prop := match c with Some c => met vt c T | None => True end.
Definition kids (p : plan) : list plan := match p_val p with SData (Some l) => l | _ => [] end.
Fixpoint shows (vt : string -> bool) (path : list step) (ps : list plan) : Prop :=
  match path with
  | [] => True
  | (T, k, f) :: path' =>
      exists p, In p ps /\ p_key p = k /\ p_field p = f /\ opens (p_guard p) T /\ met_opt vt (p_cond p) T /\
                shows vt path' (kids p)
  end.

(** *** Well-formedness *)
Section Wf.
Variable M : meta.
Definition output (t f : string) : option string :=
  match m_fields M t with Some fs => match fs f with Some (o, _) => Some o | None => None end | None => None end.
Definition objs (t : string) (T : string) : Prop := m_object M T = true /\ In T (m_possible M t).

(** The steps of a path go through objects of the declared types. *)
Fixpoint typed (X : string -> Prop) (path : list step) : Prop :=
  match path with
  | [] => True
  | (T, k, f) :: path' =>
      X T /\ (path' = [] \/ f <> "__typename" /\ exists o, output T f = Some o /\ typed (objs o) path')
  end.

(** A schema in which implementing types declare the fields of their interfaces with the very
    same type. *)
Record schema_ok := {
  so_self : forall t, In t (m_possible M t);
  so_set : forall t, NoDup (m_possible M t);
  so_object : forall t, m_object M t = true -> m_possible M t = [t];
  so_scalar : forall t T, m_scalar M t = true -> ~ objs t T;
  so_closed : forall a b c, In b (m_possible M a) -> In c (m_possible M b) -> In c (m_possible M a);
  so_uniform : forall a b f o, In b (m_possible M a) -> output a f = Some o -> output b f = Some o }.

(** Two fields with the same response key on the same object are the same field
    (FieldsInSetCanMerge, section 5.3.2). *)
Definition coherent (C : list step -> Prop) : Prop :=
  forall path T k f f', C (path ++ [(T, k, f)]) -> C (path ++ [(T, k, f')]) -> f = f'.

Definition is_field (s : sel) : Prop := match s with SField _ _ _ _ _ _ _ => True | _ => False end.
Definition applies (t : string) (s : sel) : Prop :=
  match s with SFrag t' _ _ _ => In t (m_possible M t') | _ => True end.
Definition all (Q : sel -> Prop) : list sel -> Prop :=
  fix all l := match l with [] => True | x :: l' => Q x /\ all l' end.
(** The placeholder of a selection set that lost all its members. *)
Definition placeholder (l : list sel) : Prop :=
  match l with [SField _ _ _ _ _ true _] => True | _ => False end.

(** Selections of an object of one of the types [X], all possible types of [P].  Fragments on an
    abstract type have fields only. *)
Fixpoint simple (s : sel) (P : string) (X : string -> Prop) : Prop :=
  match s with
  | SField n _ _ _ _ omit sub =>
      omit = false /\
      (n = "__typename" /\ sub = [] \/
       n <> "__typename" /\ exists o, output P n = Some o /\
         (placeholder sub \/
          ~ placeholder sub /\ (sub = [] -> forall T, ~ objs o T) /\ all (fun x => simple x o (objs o)) sub))
  | SFrag t _ _ sub =>
      sub <> [] /\ ((exists T, X T) -> exists T, X T /\ In T (m_possible M t)) /\
      all (fun x => simple x t (fun T => X T /\ In T (m_possible M t))) sub /\
      (m_object M t = true /\ all (applies t) sub \/ all is_field sub)
  | SSpread _ => False
  end.
End Wf.

(** At most one selection of a list answers a response key of an object. *)
Fixpoint unambiguous (X : string -> Prop) (ps : list plan) : Prop :=
  match ps with
  | [] => True
  | p :: ps' =>
      (forall q T, In q ps' -> p_key q = p_key p -> X T -> opens (p_guard p) T -> opens (p_guard q) T -> False) /\
      unambiguous X ps'
  end.

(** Every selection that can apply to an object of one of the types [X] keeps the nullability
    [null] of its field, has nested selections when its value can be an object, and these are
    unambiguous in turn. *)
Definition each_plan (Q : plan -> Prop) : list plan -> Prop :=
  fix each l := match l with [] => True | x :: l' => Q x /\ each l' end.
Fixpoint tidy (M : meta) (null : string -> string -> nshape -> Prop) (p : plan) (X : string -> Prop) {struct p} : Prop :=
  match p with
  | Plan f _ ty nl g _ v =>
      forall T, X T -> opens g T ->
        (ty = true <-> f = "__typename") /\ null T f nl /\
        (f = "__typename" /\ v = SData None \/
         exists o, output M T f = Some o /\
           match v with
           | SNull => False
           | SData None => forall T', ~ objs M o T'
           | SData (Some l) => unambiguous (objs M o) l /\ each_plan (fun q => tidy M null q (objs M o)) l
           end)
  end.

(** *** The response keys of an object *)
(** [below vt path ps l]: the selections [l] apply to the object that [path] leads to. *)
Fixpoint below (vt : string -> bool) (path : list step) (ps l : list plan) : Prop :=
  match path with
  | [] => l = ps
  | (T, k, f) :: path' =>
      exists p, In p ps /\ p_key p = k /\ p_field p = f /\ opens (p_guard p) T /\ met_opt vt (p_cond p) T /\
                below vt path' (kids p) l
  end.
(** [arrives M X path Y]: from an object of one of the types [X], [path] leads to one of the types [Y]. *)
Fixpoint arrives (M : meta) (X : string -> Prop) (path : list step) (Y : string -> Prop) : Prop :=
  match path with
  | [] => Y = X
  | (T, k, f) :: path' => X T /\ f <> "__typename" /\ exists o, output M T f = Some o /\ arrives M (objs M o) path' Y
  end.
(** The data has a type and an enum value that the condition expects. *)
Fixpoint expected (c : cond) (field : rname) (v : option value) : Prop :=
  match c with
  | CField t => exists n, field = inl n /\ opens (Some t) n
  | CEnum vs => match v with Some (VStr s) => In s vs | _ => True end
  | COr a b | CAnd a b => expected a field v /\ expected b field v
  | CInclude _ | CSkip _ | CParent _ => True
  end.
Definition expected_opt (c : option cond) field v : Prop := match c with Some c => expected c field v | None => True end.
Definition as_expected (M : meta) (p : plan) (T : string) (o : list (string * value)) : Prop :=
  expected_opt (p_cond p) (resolve_type_name M p (get (p_key p) o) (inl T)) (get (p_key p) o).

(** The response keys of an object in the order of CollectFields. *)
Fixpoint ordered (M : meta) (vt : string -> bool) (T : string) (s : sel) : list string :=
  let on (i : option string) := match i with Some v => vt v | None => true end in
  let off (i : option string) := match i with Some v => vt v | None => false end in
  match s with
  | SField n a _ i sk om _ =>
      if negb om && on i && negb (off sk) then [match a with Some a => a | None => n end] else []
  | SFrag t i sk sub =>
      if existsb (String.eqb T) (m_possible M t) && on i && negb (off sk) then flat_map (ordered M vt T) sub else []
  | SSpread _ => []
  end.
Fixpoint first_only (l : list string) : list string :=
  match l with [] => [] | x :: l' => x :: filter (fun y => negb (String.eqb x y)) (first_only l') end.
Definition collected_order M vt T sels : list string := first_only (flat_map (ordered M vt T) sels).
