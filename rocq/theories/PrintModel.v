(** Writing an operation as text, and taking a parsed document back to the planner's tree.
    Models the [Display] implementations of query_planner/ast/{value,arguments,selection_set,selection_item,
    fragment,operation,document}.rs and of [TypeNode] and [OperationKind] (state/supergraph_state.rs), and the
    [From] conversions of the same files. *)
From Coq Require Import String Ascii List NArith ZArith Bool.
From Verif Require Import StrOrd StrUtil Ast CondModel NormModel ProjModel GqlModel RequestModel.
Import ListNotations.
Local Open Scope string_scope.

(** ast/fragment.rs:11-16, ast/document.rs:34-38 *)
Record fragment := mkfragment { fr_name : string; fr_on : string; fr_sels : list sel }.
Record document := mkdoc { doc_op : operation; doc_frags : list fragment }.

(** * Text *)
Definition dq : ascii := ascii_of_nat 34.
Definition backslash : ascii := ascii_of_nat 92.
(** [{:04x}] of a number below 256 *)
Definition hex_digit (n : N) : ascii := ascii_of_N (if (n <? 10)%N then 48 + n else 87 + n).
Definition hex04 (n : N) : string := String "0" (String "0" (String (hex_digit (n / 16)) (String (hex_digit (n mod 16)) ""))).
(** [write_graphql_string_literal], ast/value.rs:211-241; only ASCII characters are escaped. *)
Definition escape (c : ascii) : string :=
  let n := N_of_ascii c in
  if (n =? 34)%N then String backslash (String dq "")
  else if (n =? 92)%N then String backslash (String backslash "")
  else if (n =? 10)%N then String backslash "n"
  else if (n =? 13)%N then String backslash "r"
  else if (n =? 9)%N then String backslash "t"
  else if (n =? 8)%N then String backslash "b"
  else if (n =? 12)%N then String backslash "f"
  else if ((n <? 32) || (n =? 127))%N then String backslash (String "u" (hex04 n))
  else String c "".
Fixpoint escapes (s : string) : string :=
  match s with EmptyString => "" | String c s' => escape c ++ escapes s' end.
Definition string_literal (s : string) : string := String dq (escapes s ++ String dq "").

Section Text.
  (** [Display for f64] *)
  Variable show_f64 : N -> string.

  Definition pair_text (kv : string * string) : string := fst kv ++ ": " ++ snd kv.
  (** ast/value.rs:243-279 *)
  Fixpoint value_text (v : gvalue) : string :=
    match v with
    | GVar n => "$" ++ n
    | GInt z => i64_text z
    | GFloat b => show_f64 b
    | GStr s => string_literal s
    | GBool b => if b then "true" else "false"
    | GNull => "null"
    | GEnum s => s
    | GList l => "[" ++ join ", " (map value_text l) ++ "]"
    | GObj o => "{" ++ join ", " (map (fun kv => pair_text (fst kv, value_text (snd kv))) o) ++ "}"
    end.
  (** ast/arguments.rs:104-115 *)
  Definition arguments_text (args : list (string * gvalue)) : string :=
    join ", " (map (fun kv => pair_text (fst kv, value_text (snd kv))) args).
  (** ast/selection_set.rs:42-59 *)
  Definition braced (items : list string) : string :=
    match items with [] => "" | _ => "{" ++ join " " items ++ "}" end.
  Definition skip_text (v : option string) : string :=
    match v with Some v => " @skip(if: $" ++ v ++ ")" | None => "" end.
  Definition include_text (v : option string) : string :=
    match v with Some v => " @include(if: $" ++ v ++ ")" | None => "" end.
  (** ast/selection_item.rs:33-43, ast/selection_set.rs:287-298, 359-381, 427-438 *)
  Fixpoint sel_text (x : sel) : string :=
    match x with
    | SField n al args inc skip _ sub =>
        (match al with Some a => a ++ ": " | None => "" end) ++ n ++
        (match args with Some (a :: args) => "(" ++ arguments_text (a :: args) ++ ")" | _ => "" end) ++
        skip_text skip ++ include_text inc ++ braced (map sel_text sub)
    | SFrag tc inc skip sub => "...on " ++ tc ++ skip_text skip ++ include_text inc ++ braced (map sel_text sub)
    | SSpread n => "..." ++ n
    end.
  Definition set_text (l : list sel) : string := braced (map sel_text l).
  (** state/supergraph_state.rs:1142-1150 *)
  Fixpoint type_text (t : tnode) : string :=
    match t with
    | TNamed n => n
    | TList t => "[" ++ type_text t ++ "]"
    | TNonNull t => type_text t ++ "!"
    end.
  (** ast/operation.rs:229-238 *)
  Definition vardef_text (v : vardef) : string :=
    "$" ++ vd_name v ++ ":" ++ type_text (vd_type v) ++
    match vd_default v with Some d => "=" ++ value_text d | None => "" end.
  (** state/supergraph_state.rs:779-787 *)
  Definition opkind_text (k : opkind) : string :=
    match k with Ast.KQuery => "query" | Ast.KMutation => "mutation" | Ast.KSubscription => "subscription" end.
  Definition short_form (o : operation) : bool :=
    match op_kind o with None | Some Ast.KQuery => true | _ => false end
    && match op_name o with None | Some "" => true | _ => false end
    && match op_vars o with None | Some [] => true | _ => false end.
  (** ast/operation.rs:173-206 *)
  Definition operation_text (o : operation) : string :=
    if short_form o then set_text (op_sels o)
    else (match op_kind o with Some k => opkind_text k | None => "" end) ++
         (match op_name o with Some n => " " ++ n ++ " " | None => "" end) ++
         (match op_vars o with Some (v :: vs) => "(" ++ join ", " (map vardef_text (v :: vs)) ++ ")" | _ => "" end) ++
         set_text (op_sels o).
  (** ast/fragment.rs:48-58 *)
  Definition fragment_text (f : fragment) : string :=
    "fragment " ++ fr_name f ++ " on " ++ fr_on f ++ " " ++ set_text (fr_sels f).
  Definition nl : string := String (ascii_of_nat 10) "".
  Fixpoint lines (l : list string) : string := match l with [] => "" | x :: l' => x ++ nl ++ lines l' end.
  (** ast/document.rs:40-54 *)
  Definition document_text (d : document) : string :=
    operation_text (doc_op d) ++
    match doc_frags d with [] => "" | l => nl ++ nl ++ lines (map fragment_text l) end.

  (** [SubgraphFetchOperation::from_anonymous_operation], ast/operation.rs:70-102, and the name put in by the
      executors, [RequestModel.ws_query] *)
  Definition named_text (name : string) (d : document) : option string :=
    ws_query name (name_write_position (document_text d)) (document_text d).
End Text.

(** * From the parser's tree *)
(** [BTreeMap::insert] *)
Fixpoint ginsert (k : string) (v : gvalue) (m : list (string * gvalue)) : list (string * gvalue) :=
  match m with
  | [] => [(k, v)]
  | (k', v') :: m' => match String.compare k k' with
                      | Lt => (k, v) :: m
                      | Eq => (k, v) :: m'
                      | Gt => (k', v') :: ginsert k v m'
                      end
  end.
Definition gcollect (l : list (string * gvalue)) : list (string * gvalue) :=
  fold_left (fun m kv => ginsert (fst kv) (snd kv) m) l [].
(** ast/value.rs:80-103 *)
Fixpoint of_value (v : gvalue) : gvalue :=
  match v with
  | GList l => GList (map of_value l)
  | GObj o => GObj (gcollect (map (fun kv => (fst kv, of_value (snd kv))) o))
  | v => v
  end.
(** ast/arguments.rs:55-67 *)
Definition of_arguments (args : list (string * gvalue)) : list (string * gvalue) :=
  gcollect (map (fun kv => (fst kv, of_value (snd kv))) args).
(** ast/selection_item.rs:221-318; [None] is a panic. *)
Definition of_each {A B} (k : A -> option B) : list A -> option (list B) :=
  fix each (l : list A) :=
    match l with
    | [] => Some []
    | x :: l' => match k x with Some y => option_map (cons y) (each l') | None => None end
    end.
Fixpoint of_selection (x : nsel) : option sel :=
  match x with
  | NField al n args ds sub =>
      let c := conditions_pair ds in
      option_map (SField n al (match args with [] => None | _ => Some (of_arguments args) end) (snd c) (fst c) false)
                 (of_each of_selection sub)
  | NInline (Some tc) ds sub =>
      let c := conditions_pair ds in option_map (SFrag tc (snd c) (fst c)) (of_each of_selection sub)
  | NInline None _ _ => None
  | NSpread n _ => Some (SSpread n)
  end.
(** ast/operation.rs:298-316 *)
Definition of_vardef (v : vardef) : vardef := mkvardef (vd_name v) (vd_type v) (option_map of_value (vd_default v)).
(** ast/operation.rs:240-294; [Some (inl o)] an operation, [Some (inr f)] a fragment (ast/fragment.rs:38-46) *)
Definition of_definition (d : pdef) : option (operation + fragment) :=
  match d with
  | PSelections l => option_map (fun l => inl (mkop None (Some Ast.KQuery) l None)) (of_each of_selection l)
  | POperation k n vs _ l =>
      option_map (fun l => inl (mkop n (Some k) l (match vs with [] => None | _ => Some (map of_vardef vs) end)))
                 (of_each of_selection l)
  | PFragment n tc _ l => option_map (fun l => inr (mkfragment n tc l)) (of_each of_selection l)
  end.
(** The first operation and all fragments, as in ast/operation.rs:324-340 *)
Fixpoint gather (op : option operation) (fs : list fragment) (l : list (operation + fragment)) : option document :=
  match l with
  | [] => option_map (fun o => mkdoc o (rev fs)) op
  | inl o :: l' => gather (match op with Some _ => op | None => Some o end) fs l'
  | inr f :: l' => gather op (f :: fs) l'
  end.
Definition of_document (ds : list pdef) : option document :=
  match of_each of_definition ds with Some l => gather None [] l | None => None end.
