(** What the text of an operation should say: the document the planner's tree stands for, in the terms of the
    GraphQL grammar, and the trees that can be written at all. *)
From Coq Require Import String Ascii List NArith ZArith Bool.
From Verif Require Import StrOrd Ast CondModel NormModel GqlModel GqlSpec PrintModel.
Import ListNotations.
Local Open Scope string_scope.
Local Open Scope list_scope.

(** * The document a tree stands for *)
Definition condition (name : string) (v : option string) : list directive :=
  match v with Some v => [{| d_name := name; d_args := [("if", GVar v)] |}] | None => [] end.
Definition conditions (skip inc : option string) : list directive := condition "skip" skip ++ condition "include" inc.
Definition listed {A} (l : option (list A)) : list A := match l with Some l => l | None => [] end.
Fixpoint shown_sel (x : sel) : nsel :=
  match x with
  | SField n al args inc skip _ sub => NField al n (listed args) (conditions skip inc) (map shown_sel sub)
  | SFrag tc inc skip sub => NInline (Some tc) (conditions skip inc) (map shown_sel sub)
  | SSpread n => NSpread n []
  end.
Definition kind_of (o : operation) : opkind := match op_kind o with Some k => k | None => KQuery end.
Definition name_of (o : operation) : option string :=
  match op_name o with Some n => if string_dec n "" then None else Some n | None => None end.
Definition shown_op (o : operation) : pdef :=
  match kind_of o, name_of o, listed (op_vars o) with
  | KQuery, None, [] => PSelections (map shown_sel (op_sels o))
  | k, n, vs => POperation k n vs [] (map shown_sel (op_sels o))
  end.
Definition shown_frag (f : fragment) : pdef := PFragment (fr_name f) (fr_on f) [] (map shown_sel (fr_sels f)).
Definition shown (d : document) : list pdef := shown_op (doc_op d) :: map shown_frag (doc_frags d).

(** * Trees that can be written *)
Section Fit.
  Variable f64_of : string -> option N.
  Variable show_f64 : N -> string.
  Variable string_ok : string -> Prop.

  (** A float is written as one, and as the same. *)
  Definition float_fit (b : N) : Prop :=
    FloatText (show_f64 b) /\ plain_exponent (show_f64 b) /\ f64_of (show_f64 b) = Some b.
  Inductive value_fit (const : bool) : gvalue -> Prop :=
  | fit_var n : const = false -> Name n -> value_fit const (GVar n)
  | fit_int z : in_i64 z -> value_fit const (GInt z)
  | fit_float b : float_fit b -> value_fit const (GFloat b)
  | fit_str s : string_ok s -> value_fit const (GStr s)
  | fit_bool b : value_fit const (GBool b)
  | fit_null : value_fit const GNull
  | fit_enum s : Name s -> s <> "true" -> s <> "false" -> s <> "null" -> value_fit const (GEnum s)
  | fit_list l : Forall (value_fit const) l -> value_fit const (GList l)
  | fit_obj o : Forall (fun kv => Name (fst kv) /\ value_fit const (snd kv)) o -> value_fit const (GObj o).
  Definition args_fit (args : list (string * gvalue)) : Prop :=
    Forall (fun kv => Name (fst kv) /\ value_fit false (snd kv)) args.
  Definition name_fit (n : option string) : Prop := match n with Some n => Name n | None => True end.
  Inductive sel_fit : sel -> Prop :=
  | fit_field n al args inc skip om sub : name_fit al -> Name n -> args_fit (listed args) -> name_fit inc -> name_fit skip ->
      Forall sel_fit sub -> sel_fit (SField n al args inc skip om sub)
  | fit_frag tc inc skip sub : Name tc -> name_fit inc -> name_fit skip -> sub <> [] ->
      Forall sel_fit sub -> sel_fit (SFrag tc inc skip sub)
  | fit_spread n : Name n -> n <> "on" -> sel_fit (SSpread n).
  Definition set_fit (l : list sel) : Prop := l <> [] /\ Forall sel_fit l.
  Fixpoint type_fit (t : tnode) : Prop :=
    match t with
    | TNamed n => Name n
    | TList t => type_fit t
    | TNonNull t => type_fit t /\ match t with TNonNull _ => False | _ => True end
    end.
  Definition vardef_fit (v : vardef) : Prop :=
    Name (vd_name v) /\ type_fit (vd_type v) /\
    match vd_default v with Some d => value_fit true d | None => True end.
  (** The kind is there, unless the operation is a query without a name and variables. *)
  Definition op_fit (o : operation) : Prop :=
    name_fit (name_of o) /\ Forall vardef_fit (listed (op_vars o)) /\ set_fit (op_sels o) /\
    (op_kind o = None -> name_of o = None /\ listed (op_vars o) = []).
  Definition frag_fit (f : fragment) : Prop :=
    Name (fr_name f) /\ fr_name f <> "on" /\ Name (fr_on f) /\ set_fit (fr_sels f).
  Definition doc_fit (d : document) : Prop := op_fit (doc_op d) /\ Forall frag_fit (doc_frags d).
End Fit.
(** U+0008 does not occur. *)
Definition no_backspace (s : string) : Prop := each_char (fun c => c <> "008"%char) s.
Definition any_string (_ : string) : Prop := True.

(** * The maps of the tree are ordered. *)
Inductive value_ordered : gvalue -> Prop :=
| ordered_leaf v : match v with GList _ | GObj _ => False | _ => True end -> value_ordered v
| ordered_list l : Forall value_ordered l -> value_ordered (GList l)
| ordered_obj o : keys_sorted o -> Forall (fun kv => value_ordered (snd kv)) o -> value_ordered (GObj o).
Definition args_ordered (args : list (string * gvalue)) : Prop :=
  keys_sorted args /\ Forall (fun kv => value_ordered (snd kv)) args.
Inductive sel_ordered : sel -> Prop :=
| ordered_field n al args inc skip om sub : args_ordered (listed args) -> Forall sel_ordered sub ->
    sel_ordered (SField n al args inc skip om sub)
| ordered_frag tc inc skip sub : Forall sel_ordered sub -> sel_ordered (SFrag tc inc skip sub)
| ordered_spread n : sel_ordered (SSpread n).
Definition doc_ordered (d : document) : Prop :=
  Forall sel_ordered (op_sels (doc_op d)) /\
  Forall (fun v => match vd_default v with Some d => value_ordered d | None => True end) (listed (op_vars (doc_op d))) /\
  Forall (fun f => Forall sel_ordered (fr_sels f)) (doc_frags d).

(** * What the text keeps of a tree: not the mark of fields left out of responses, and nothing of absence. *)
Definition present {A} (l : option (list A)) : option (list A) := match l with Some [] => None | l => l end.
Fixpoint kept_sel (x : sel) : sel :=
  match x with
  | SField n al args inc skip _ sub => SField n al (present args) inc skip false (map kept_sel sub)
  | SFrag tc inc skip sub => SFrag tc inc skip (map kept_sel sub)
  | SSpread n => SSpread n
  end.
Definition kept_op (o : operation) : operation :=
  mkop (name_of o) (Some (kind_of o)) (map kept_sel (op_sels o)) (present (op_vars o)).
Definition kept (d : document) : document :=
  mkdoc (kept_op (doc_op d)) (map (fun f => mkfragment (fr_name f) (fr_on f) (map kept_sel (fr_sels f))) (doc_frags d)).
Definition with_name (n : string) (d : document) : document :=
  mkdoc (mkop (Some n) (op_kind (doc_op d)) (op_sels (doc_op d)) (op_vars (doc_op d))) (doc_frags d).

(** Tokens that can be written again *)
Definition writable (f64_of : string -> option N) (show : N -> string) (string_ok : string -> Prop) (t : dtok) : Prop :=
  match t with DFloat b => float_fit f64_of show b | DStr s => string_ok s | _ => True end.
