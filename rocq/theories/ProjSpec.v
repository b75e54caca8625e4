(** Specification of the response projection: value completion with null propagation, as in
    section 6.4 of the GraphQL specification, on trees instead of a byte buffer. *)
From Coq Require Import String List NArith ZArith Bool.
From Verif Require Import StrOrd StrUtil JsonModel JsonWriterModel JsonText ProjModel.
Import ListNotations.
Local Open Scope string_scope.

(** The tree shown to the client. *)
Inductive out :=
| ONull
| OLeaf (v : value)          (* data passed through *)
| OName (n : string)         (* a [__typename] answered by the router *)
| OArr (l : list out)
| OObj (o : list (string * out)).

Section Spec.
  Variable M : meta.
  Variable vtrue : string -> bool.

  (** Does a selection apply to an object [o] of type [pt]? *)
  Inductive status := Absent | Invalid | Present | Stuck.
  Definition field_status (q : plan) (pt : rname) (o : list (string * value)) : status :=
    let v := get (p_key q) o in
    match p_guard q, pt with
    | Some _, inr _ => Stuck
    | Some g, inl n =>
        if tmatches g n then
          match p_cond q with
          | None => Present
          | Some c => match check vtrue c pt (resolve_type_name M q v pt) v with
                      | COk => Present | ESkip | EParent => Absent
                      | EField | EEnum => Invalid | EFatal _ => Stuck
                      end
          end
        else Absent
    | None, _ =>
        match p_cond q with
        | None => Present
        | Some c => match check vtrue c pt (resolve_type_name M q v pt) v with
                    | COk => Present | ESkip | EParent => Absent
                    | EField | EEnum => Invalid | EFatal _ => Stuck
                    end
        end
    end.

  Definition item_shape (n : nshape) : nshape := match list_item n with Some i => i | None => n end.
  Definition item_nn (n : nshape) : bool :=
    match list_item n with Some i => is_non_null i | None => false end.

  (** [comp p nul pt d t]: value [d] of selection [p], in a position of nullability [nul] inside
      an object of type [pt], is shown as [t].  [ONull] is a null that its parent must take
      over when the position is non-null. *)
  Inductive comp : plan -> nshape -> rname -> value -> out -> Prop :=
  | comp_null p nul pt : comp p nul pt VNull ONull
  | comp_leaf p nul pt v :
      match v with VNull | VArr _ | VObj _ => False | _ => True end ->
      comp p nul pt v (OLeaf v)
  | comp_whole p nul pt o : p_val p = SData None -> comp p nul pt (VObj o) (OLeaf (VObj o))
  | comp_nulled p nul pt o : p_val p = SNull -> comp p nul pt (VObj o) ONull
  | comp_arr p nul pt l ts :
      Forall2 (comp p (item_shape nul) pt) l ts ->
      (item_nn nul = true -> ~ In ONull ts) ->
      comp p nul pt (VArr l) (OArr ts)
  | comp_arr_null p nul pt l x :
      item_nn nul = true -> In x l -> comp p (item_shape nul) pt x ONull ->
      comp p nul pt (VArr l) ONull
  | comp_obj p nul pt o sels kvs :
      p_val p = SData (Some sels) ->
      fields sels (resolve_type_name M p (Some (VObj o)) pt) o kvs ->
      comp p nul pt (VObj o) (OObj kvs)
  | comp_obj_null p nul pt o sels q :
      p_val p = SData (Some sels) -> In q sels -> is_non_null (p_null q) = true ->
      fieldc q (resolve_type_name M p (Some (VObj o)) pt) o ONull ->
      comp p nul pt (VObj o) ONull
  (** the value shown for selection [q] on object [o] *)
  with fieldc : plan -> rname -> list (string * value) -> out -> Prop :=
  | f_invalid q pt o : field_status q pt o = Invalid -> fieldc q pt o ONull
  | f_nulled q pt o : field_status q pt o = Present -> p_val q = SNull -> fieldc q pt o ONull
  | f_typename q n o s :
      field_status q (inl n) o = Present -> p_val q = SData s -> p_typename q = true ->
      fieldc q (inl n) o (OName n)
  | f_missing q pt o s :
      field_status q pt o = Present -> p_val q = SData s -> p_typename q = false ->
      get (p_key q) o = None -> fieldc q pt o ONull
  | f_value q pt o s v t :
      field_status q pt o = Present -> p_val q = SData s -> p_typename q = false ->
      get (p_key q) o = Some v -> comp q (p_null q) pt v t -> fieldc q pt o t
  (** the members shown for a list of selections *)
  with fields : list plan -> rname -> list (string * value) -> list (string * out) -> Prop :=
  | fs_nil pt o : fields [] pt o []
  | fs_absent q qs pt o kvs :
      field_status q pt o = Absent -> fields qs pt o kvs -> fields (q :: qs) pt o kvs
  | fs_shown q qs pt o t kvs :
      fieldc q pt o t -> (t = ONull -> is_non_null (p_null q) = false) ->
      fields qs pt o kvs -> fields (q :: qs) pt o ((p_key q, t) :: kvs).

  (** The [data] entry of the response. *)
  Inductive comp_root : string -> list plan -> value -> out -> Prop :=
  | root_obj root ps o kvs : fields ps (inl root) o kvs -> comp_root root ps (VObj o) (OObj kvs)
  | root_null root ps o q :
      In q ps -> is_non_null (p_null q) = true -> fieldc q (inl root) o ONull ->
      comp_root root ps (VObj o) ONull
  | root_other root ps d : match d with VObj _ => False | _ => True end -> comp_root root ps d ONull.
End Spec.

(** ** Textual form *)
Section Print.
  Variable ryu : N -> string.
  Definition q1 : string := String (chr 34) "".

  Fixpoint print_value (v : value) : string :=
    match v with
    | VNull => "null"
    | VBool true => "true"
    | VBool false => "false"
    | VU64 n => N_to_dec n
    | VI64 z => i64_text z
    | VF64 b => f64_text ryu b
    | VStr s => quoted s
    | VRaw s => s
    | VObj o => "{" ++ join "," (map (fun kv => quoted (fst kv) ++ ":" ++ print_value (snd kv)) o) ++ "}"
    | VArr l => "[" ++ join "," (map print_value l) ++ "]"
    end.

  (** The router writes response keys and type names without escaping. *)
  Fixpoint print (t : out) : string :=
    match t with
    | ONull => "null"
    | OLeaf v => print_value v
    | OName n => q1 ++ n ++ q1
    | OArr l => "[" ++ join "," (map print l) ++ "]"
    | OObj o => "{" ++ join "," (map (fun kv => q1 ++ fst kv ++ q1 ++ ":" ++ print (snd kv)) o) ++ "}"
    end.
End Print.

(** What the tree means. *)
Section Meaning.
  Variable ryu : N -> string.
  Variable raw : string -> jval.     (* meaning of a raw JSON text *)
  Fixpoint value_json (v : value) : jval :=
    match v with
    | VNull => JNull
    | VBool b => JBool b
    | VU64 n => JNum (N_to_dec n)
    | VI64 z => JNum (i64_text z)
    | VF64 b => if finite b then JNum (ryu b) else JNull
    | VStr s => JStr s
    | VRaw s => raw s
    | VObj o => JObj (map (fun kv => (fst kv, value_json (snd kv))) o)
    | VArr l => JArr (map value_json l)
    end.
  Fixpoint out_json (t : out) : jval :=
    match t with
    | ONull => JNull
    | OLeaf v => value_json v
    | OName n => JStr n
    | OArr l => JArr (map out_json l)
    | OObj o => JObj (map (fun kv => (fst kv, out_json (snd kv))) o)
    end.
End Meaning.

(** Strings that need no escaping, e.g. GraphQL names. *)
Definition plain (s : string) : bool := all_chars (fun c => negb (needs_escape c)) s.

(** Data reachable by the selection only: other members are dropped, except the type name. *)
Definition kept (sels : list plan) (k : string) : bool :=
  (String.eqb k "__typename" || existsb (fun q => String.eqb k (p_key q)) sels)%bool.

(** The type of the value [v] shown for the selection [p] of an object of type [parent]: what the
    data says about itself, otherwise what the schema declares for the field. *)
Definition says_type (v : option value) (t : string) : Prop :=
  exists o, v = Some (VObj o) /\ get "__typename" o = Some (VStr t).
Inductive has_type (M : meta) (p : plan) (v : option value) (parent : rname) : string -> Prop :=
| T_typename : p_typename p = true -> has_type M p v parent "String"
| T_said : forall t, p_typename p = false -> says_type v t -> has_type M p v parent t
| T_declared : forall pt fs t nl, p_typename p = false -> (forall t', ~ says_type v t') ->
    parent = inl pt -> m_fields M pt = Some fs -> fs (p_field p) = Some (t, nl) ->
    has_type M p v parent t.
