(** Which schema coordinates an operation uses, by the calls of the walk over it. *)
From Coq Require Import String List Bool.
From Verif Require Import Ast ConsumerModel IntroModel CondModel NormModel WalkModel CoordModel.
Import ListNotations.
Local Open Scope string_scope.
Local Open Scope list_scope.

Section Spec.
  Variable sch : list definition.
  (** Types of inputs that are within others *)
  Definition edge (a b : string) : Prop :=
    exists m d ds fs f, type_by_name sch a = Some (InputObject m d ds fs) /\ In f fs /\ inner_type (iv_type f) = b.
  Inductive reach : string -> string -> Prop :=
  | reach_here a : reach a a
  | reach_in a b c : edge a b -> reach b c -> reach a c.
  Definition builtin (n : string) : Prop := In n ["String"; "Int"; "Float"; "Boolean"; "ID"].
  Definition custom (n : string) : Prop := exists m d ds, type_by_name sch n = Some (Scalar m d ds).
  (** What belongs to a type itself *)
  Definition belongs (n : string) (c : coord) : Prop :=
    match type_by_name sch n with
    | Some (Scalar _ _ _) => c = CType n
    | Some (InputObject _ _ _ fs) => exists f, In f fs /\ c = CMember n (iv_name f)
    | Some (Enum _ _ _ vs) => exists v, In v vs /\ c = CMember n (ev_name v)
    | Some _ => False
    | None => builtin n /\ c = CType n
    end.
  (** ... and to those within it *)
  Definition within (n : string) (c : coord) : Prop := exists x, reach n x /\ belongs x c.

  Inductive in_default : string -> gvalue -> coord -> Prop :=
  | def_enum t e : in_default t (GEnum e) (CMember t e)
  | def_item t l x c : In x l -> in_default t x c -> in_default t (GList l) c
  | def_here t o m d ds fs k x f c : type_by_name sch t = Some (InputObject m d ds fs) -> In (k, x) o -> input_by_name fs k = Some f ->
      c = CMember t k \/ c = CGiven (CMember t k) -> in_default t (GObj o) c
  | def_below t o m d ds fs k x f c : type_by_name sch t = Some (InputObject m d ds fs) -> In (k, x) o -> input_by_name fs k = Some f ->
      in_default (inner_type (iv_type f)) x c -> in_default t (GObj o) c.

  (** What a value shows of its type where it is an argument, an item of a list, or a field of an object *)
  Inductive plain : gvalue -> Prop := plain_int z : plain (GInt z) | plain_float b : plain (GFloat b) | plain_str s : plain (GStr s) | plain_bool b : plain (GBool b).
  Inductive as_item (t : string) : gvalue -> coord -> Prop :=
  | item_enum e : as_item t (GEnum e) (CMember t e)
  | item_plain v : plain v -> builtin t \/ custom t -> as_item t v (CType t)
  | item_null : builtin t \/ custom t -> as_item t GNull (CType t).
  Inductive as_argument (t : string) : gvalue -> coord -> Prop :=
  | arg_item v c : as_item t v c -> as_argument t v c
  | arg_object o : custom t -> as_argument t (GObj o) (CType t).
  Inductive as_entry (t : string) : gvalue -> coord -> Prop :=
  | entry_enum e : as_entry t (GEnum e) (CMember t e)
  | entry_plain v : plain v -> builtin t \/ custom t -> as_entry t v (CType t)
  | entry_var x : builtin t \/ custom t -> as_entry t (GVar x) (CType t)
  | entry_object o : custom t -> as_entry t (GObj o) (CType t)
  | entry_null m d ds fs c : type_by_name sch t = Some (InputObject m d ds fs) -> within t c -> as_entry t GNull c.

  (** The field that a call is within *)
  Definition neutral (e : event) : Prop := match e with EnterField _ _ _ _ _ | LeaveField => False | _ => True end.
  Inductive balanced : list call -> Prop :=
  | bal_nil : balanced []
  | bal_other c e l : neutral e -> balanced l -> balanced ((c, e) :: l)
  | bal_field c al n args ds sub l c' m : balanced l -> balanced m -> balanced ((c, EnterField al n args ds sub) :: l ++ (c', LeaveField) :: m).
  Definition field_of (c : ctx) (n : string) : option field := match c_parent c with Some p => field_by_name p n | None => None end.
  Definition inside (before : list call) (f : option field) : Prop :=
    exists a c al n args ds sub b, before = a ++ (c, EnterField al n args ds sub) :: b /\ balanced b /\ f = field_of c n.
  (** A value is given: it is not null, and if it is a variable, one with a default that is defined before *)
  Definition given (before : list call) (v : gvalue) : Prop :=
    match v with
    | GNull => False
    | GVar x => exists c d y, In (c, EnterVariable d) before /\ vd_default d = Some y /\ vd_name d = x
    | _ => True
    end.

  Definition says (before : list call) (x : call) (c : coord) : Prop :=
    let '(k, e) := x in
    match e with
    | EnterField _ n _ _ _ => exists p, c_parent k = Some p /\
        (c = CMember (type_name p) n \/
         exists f m d ds vs v, field_by_name p n = Some f /\ type_by_name sch (inner_type (f_type f)) = Some (Enum m d ds vs) /\ In v vs /\ c = CMember m (ev_name v))
    | EnterVariable v => exists y, vd_default v = Some y /\ in_default (inner_type (vd_type v)) y c
    | EnterArgument n v => exists p f, c_parent k = Some p /\ inside before (Some f) /\
        (c = CArg (type_name p) (f_name f) n \/
         c = CGiven (CArg (type_name p) (f_name f) n) /\ given before v \/
         exists f' a, field_by_name p (f_name f) = Some f' /\ input_by_name (f_args f') n = Some a /\ as_argument (inner_type (iv_type a)) v c)
    | EnterList l => exists t v, typed sch (c_input k) = Some t /\ In v l /\ as_item (type_name t) v c
    | EnterObject o => exists m d ds fs n v f, typed sch (c_input k) = Some (InputObject m d ds fs) /\ In (n, v) o /\ input_by_name fs n = Some f /\
        (c = CMember m (iv_name f) \/ c = CGiven (CMember m (iv_name f)) /\ given before v \/ as_entry (inner_type (iv_type f)) v c)
    | _ => False
    end.
  Definition reported (calls : list call) (c : coord) : Prop :=
    (exists before x after, calls = before ++ x :: after /\ says before x c) \/
    (exists k v, In (k, EnterVariable v) calls /\ within (inner_type (vd_type v)) c).
  Definition orphan (calls : list call) : Prop :=
    exists k e, In (k, e) calls /\ c_parent k = None /\ match e with EnterField _ _ _ _ _ | EnterArgument _ _ => True | _ => False end.
End Spec.
