(** The walk over a document that all validation rules share.
    Models lib/graphql-tools/src/ast/operation_visitor.rs:31-475, the lookups of ast/ext.rs:21-118,213-219 and
    validation/rules/rule.rs:9-404 with [validate], validation/validate.rs:73-98.
    The walk does not depend on what the visitors do, so it is the list of the calls that it makes, each with what
    the stacks of the context show at that time.  Positions are left out. *)
From Coq Require Import String List Bool.
From Verif Require Import Ast ConsumerModel IntroModel CondModel NormModel.
Import ListNotations.
Local Open Scope string_scope.
Local Open Scope list_scope.

(** parser/query/ast.rs: definitions.  [OperationDefinition::SelectionSet] is a query without name, directives and
    variables: the accessors of ast/ext.rs:43-70,470-479 give the same for both. *)
Inductive qdef :=
| QFrag (name tc : string) (dirs : list directive) (set : list nsel)
| QOp (k : opkind) (name : option string) (dirs : list directive) (vars : list vardef) (set : list nsel).

(** ext.rs:213-219 *)
Fixpoint inner_type (t : tnode) : string :=
  match t with TNamed n => n | TList t' | TNonNull t' => inner_type t' end.
(** ext.rs:21-31 *)
Definition field_by_name (t : typedef) (n : string) : option field :=
  match t with
  | Object _ _ _ _ fs | Interface _ _ _ _ fs => find (fun f => String.eqb (f_name f) n) fs
  | _ => None
  end.
(** ext.rs:33-40 *)
Definition input_by_name (l : list input_value) (n : string) : option input_value :=
  find (fun f => String.eqb (iv_name f) n) l.
Definition input_field_by_name (t : typedef) (n : string) : option input_value :=
  match t with InputObject _ _ _ fs => input_by_name fs n | _ => None end.
(** ext.rs:85-95 *)
Record ddef := mkddef { dd_name : string; dd_args : list input_value; dd_repeatable : bool; dd_locations : list string }.
Fixpoint directive_by_name (sch : list definition) (n : string) : option ddef :=
  match sch with
  | [] => None
  | DirectiveDef n' _ args r ls :: sch' => if String.eqb n' n then Some (mkddef n' args r ls) else directive_by_name sch' n
  | _ :: sch' => directive_by_name sch' n
  end.
(** [context.directives], operation_visitor.rs:44-52: a map, so a later definition replaces an earlier one *)
Fixpoint known_directive (sch : list definition) (n : string) (found : option ddef) : option ddef :=
  match sch with
  | [] => found
  | DirectiveDef n' _ args r ls :: sch' => known_directive sch' n (if String.eqb n' n then Some (mkddef n' args r ls) else found)
  | _ :: sch' => known_directive sch' n found
  end.
(** [known_fragments], operation_visitor.rs:38-43 *)
Fixpoint known_fragment (doc : list qdef) (n : string) (found : option qdef) : option qdef :=
  match doc with
  | [] => found
  | (QFrag n' _ _ _ as d) :: doc' => known_fragment doc' n (if String.eqb n' n then Some d else found)
  | _ :: doc' => known_fragment doc' n found
  end.
(** ext.rs:97-118 *)
Definition object_named (sch : list definition) (n : option string) : option string :=
  match n with
  | None => None
  | Some n => match type_by_name sch n with Some (Object m _ _ _ _) => Some m | _ => None end
  end.
(** [None]: the panic of [query_type] *)
Definition root_of (sch : list definition) (k : opkind) : option (option string) :=
  match k with
  | KQuery => match object_named sch (query_type_name sch) with Some n => Some (Some n) | None => None end
  | KMutation => Some (object_named sch (mutation_type_name sch))
  | KSubscription => Some (object_named sch (subscription_type_name sch))
  end.

(** What the tops of the stacks show *)
Record ctx := mkctx {
  c_type : option tnode; (* current_type_literal *)
  c_parent : option typedef;
  c_input : option tnode; (* current_input_type_literal *)
  c_default : bool }.
Definition no_ctx : ctx := mkctx None None None false.

Inductive event :=
| EnterDocument | LeaveDocument
| EnterOp (k : opkind) (name : option string) (dirs : list directive) (vars : list vardef) (set : list nsel)
| LeaveOp
| EnterFrag (name tc : string) (dirs : list directive) (set : list nsel)
| LeaveFrag
| EnterVariable (v : vardef)
| EnterDirective (d : directive) | LeaveDirective
| EnterArgument (n : string) (v : gvalue)
| EnterField (al : option string) (n : string) (args : list (string * gvalue)) (dirs : list directive) (sub : list nsel)
| LeaveField
| EnterSpread (n : string) (dirs : list directive) | LeaveSpread
| EnterInline (tc : option string) (dirs : list directive) (sub : list nsel) | LeaveInline
| EnterScalar (v : gvalue) | EnterNull | EnterEnum (s : string) | EnterUse (v : string)
| EnterList (l : list gvalue) | EnterObject (o : list (string * gvalue)).
Definition call : Type := ctx * event.

Section Walk.
  Variable sch : list definition.

  (** [current_type]: [with_type], lines 55-70 *)
  Definition typed (t : option tnode) : option typedef :=
    match t with Some t => type_by_name sch (inner_type t) | None => None end.
  Definition with_type (c : ctx) (t : option tnode) : ctx := mkctx t (c_parent c) (c_input c) (c_default c).
  (** lines 72-80 *)
  Definition with_parent (c : ctx) : ctx := mkctx (c_type c) (typed (c_type c)) (c_input c) (c_default c).
  (** lines 97-126 *)
  Definition with_input (c : ctx) (t : option tnode) (d : bool) : ctx := mkctx (c_type c) (c_parent c) t d.

  (** lines 255-319 *)
  Fixpoint walk_value (c : ctx) (v : gvalue) : list call :=
    match v with
    | GBool _ | GFloat _ | GInt _ | GStr _ => [(c, EnterScalar v)]
    | GNull => [(c, EnterNull)]
    | GEnum s => [(c, EnterEnum s)]
    | GList l =>
        let item := match c_input c with Some (TList t) => Some t | _ => None end in
        (c, EnterList l)
        :: (fix go (l : list gvalue) : list call :=
              match l with [] => [] | x :: l' => walk_value (with_input c item false) x ++ go l' end) l
    | GObj o =>
        (c, EnterObject o)
        :: (fix go (o : list (string * gvalue)) : list call :=
              match o with
              | [] => []
              | (k, x) :: o' =>
                  let f := match typed (c_input c) with Some t => input_field_by_name t k | None => None end in
                  let d := match f with Some f => match iv_default f with Some _ => true | None => false end | None => false end in
                  walk_value (with_input c (option_map iv_type f) d) x ++ go o'
              end) o
    | GVar n => [(c, EnterUse n)]
    end.

  (** lines 231-253 *)
  Definition walk_argument (c : ctx) (defs : option (list input_value)) (a : string * gvalue) : list call :=
    let def := match defs with Some l => input_by_name l (fst a) | None => None end in
    let d := match def with Some f => match iv_default f with Some _ => true | None => false end | None => false end in
    let c' := with_input c (option_map iv_type def) d in
    (c', EnterArgument (fst a) (snd a)) :: walk_value c' (snd a).
  Definition walk_arguments (c : ctx) (defs : option (list input_value)) (l : list (string * gvalue)) : list call :=
    flat_map (walk_argument c defs) l.
  (** lines 205-229 *)
  Definition walk_directive (c : ctx) (d : directive) : list call :=
    (c, EnterDirective d) :: walk_arguments c (option_map dd_args (directive_by_name sch (d_name d))) (d_args d)
    ++ [(c, LeaveDirective)].
  Definition walk_directives (c : ctx) (l : list directive) : list call := flat_map (walk_directive c) l.
  (** lines 321-342 *)
  Definition walk_variable (c : ctx) (v : vardef) : list call :=
    let c' := with_input c (Some (vd_type v)) false in
    (c', EnterVariable v) :: match vd_default v with Some x => walk_value c' x | None => [] end.

  (** lines 344-440; [c] is the context of the selection, its parent type set *)
  Fixpoint walk_selection (c : ctx) (x : nsel) : list call :=
    match x with
    | NField al n args ds sub =>
        let f := match c_parent c with Some t => field_by_name t n | None => None end in
        let c' := with_type c (option_map f_type f) in
        (c', EnterField al n args ds sub)
        :: walk_arguments c' (option_map f_args f) args ++ walk_directives c' ds
        ++ (fix go (l : list nsel) : list call :=
              match l with [] => [] | y :: l' => walk_selection (with_parent c') y ++ go l' end) sub
        ++ [(c', LeaveField)]
    | NSpread n ds => (c, EnterSpread n ds) :: walk_directives c ds ++ [(c, LeaveSpread)]
    | NInline tc ds sub =>
        let c' := match tc with Some t => with_type c (Some (TNamed t)) | None => c end in
        (c', EnterInline tc ds sub)
        :: walk_directives c' ds
        ++ (fix go (l : list nsel) : list call :=
              match l with [] => [] | y :: l' => walk_selection (with_parent c') y ++ go l' end) sub
        ++ [(c', LeaveInline)]
    end.
  Definition walk_set (c : ctx) (set : list nsel) : list call := flat_map (walk_selection (with_parent c)) set.

  (** lines 169-203 and 442-475 *)
  Definition walk_definition (d : qdef) : option (list call) :=
    match d with
    | QFrag n tc ds set =>
        let c := with_type no_ctx (Some (TNamed tc)) in
        Some ((c, EnterFrag n tc ds set) :: walk_directives c ds ++ walk_set c set ++ [(c, LeaveFrag)])
    | QOp k n ds vs set =>
        match root_of sch k with
        | None => None
        | Some r =>
            let c := with_type no_ctx (option_map TNamed r) in
            Some ((c, EnterOp k n ds vs set) :: walk_directives c ds ++ flat_map (walk_variable c) vs ++ walk_set c set ++ [(c, LeaveOp)])
        end
    end.
  Fixpoint walk_definitions (doc : list qdef) : option (list call) :=
    match doc with
    | [] => Some []
    | d :: doc' =>
        match walk_definition d, walk_definitions doc' with
        | Some a, Some b => Some (a ++ b)
        | _, _ => None
        end
    end.
  (** lines 156-167; [None] is a panic *)
  Definition walk (doc : list qdef) : option (list call) :=
    match walk_definitions doc with
    | Some l => Some ((no_ctx, EnterDocument) :: l ++ [(no_ctx, LeaveDocument)])
    | None => None
    end.
End Walk.

(** * Visitors, rules/rule.rs and validate.rs *)
Record visitor (E : Type) := mkvisitor { v_state : Type; v_start : v_state; v_step : v_state -> call -> v_state * list E }.
Arguments mkvisitor {E} v_state v_start v_step.
Arguments v_state {E} v. Arguments v_start {E} v. Arguments v_step {E} v.
Fixpoint run {E S : Type} (step : S -> call -> S * list E) (s : S) (l : list call) : S * list E :=
  match l with
  | [] => (s, [])
  | x :: l' => let '(s1, e) := step s x in let '(s2, e') := run step s1 l' in (s2, e ++ e')
  end.
Definition errors_of {E} (v : visitor E) (l : list call) : list E := snd (run (v_step v) (v_start v) l).
(** A visitor without state *)
Definition stateless {E} (f : call -> list E) : visitor E := mkvisitor unit tt (fun _ x => (tt, f x)).

(** [ValidationVisitors]: every call goes to every visitor in turn *)
Definition started (E : Type) : Type := { v : visitor E & v_state v }.
Definition start {E} (v : visitor E) : started E := existT _ v (v_start v).
Definition step_one {E} (s : started E) (x : call) : started E * list E :=
  let '(s', e) := v_step (projT1 s) (projT2 s) x in (existT _ (projT1 s) s', e).
Fixpoint step_all {E} (l : list (started E)) (x : call) : list (started E) * list E :=
  match l with
  | [] => ([], [])
  | s :: l' => let '(s', e) := step_one s x in let '(r, e') := step_all l' x in (s' :: r, e ++ e')
  end.
Definition validate {E} (sch : list definition) (rules : list (visitor E)) (doc : list qdef) : option (list E) :=
  match rules with
  | [] => Some []
  | _ =>
      match walk sch doc with
      | Some l => Some (snd (run step_all (map start rules) l))
      | None => None
      end
  end.
