(** What the GraphQL specification says about input coercion (sections 3.5, 3.9-3.12 and
    6.1.2), over the type definitions of the schema. *)
From Coq Require Import String List Bool ZArith NArith.
From Verif Require Import Ast CoerceModel.
Import ListNotations.
Local Open Scope string_scope.

Definition builtins : list string := ["Int"; "Float"; "String"; "Boolean"; "ID"].

Definition def_name (d : definition) : string :=
  match d with
  | DEnum n _ | DObject n _ | DInterface n _ | DUnion n _ | DScalar n | DInput n _ => n
  end.

(** Type names are defined once; the built-in scalars may only be defined as scalars. *)
Definition wf_schema (ds : list definition) : Prop :=
  NoDup (map def_name ds) /\
  forall d, In d ds -> In (def_name d) builtins -> exists n, d = DScalar n.

(** Null and absence are allowed for every type that is not written with [!]. *)
Definition nullable (t : tnode) : Prop := forall u, t <> TNonNull u.

Section Conforms.
Context (ds : list definition).
(** The integers the [Int] type holds. *)
Context (int_range : Z -> Prop).

Inductive conforms : tnode -> json -> Prop :=
| Co_null t : nullable t -> conforms t JNull
| Co_nonnull t v : v <> JNull -> conforms t v -> conforms (TNonNull t) v
| Co_list t l : Forall (conforms t) l -> conforms (TList t) (JArr l)
| Co_single t v : (forall l, v <> JArr l) -> v <> JNull -> conforms t v -> conforms (TList t) v
| Co_int z : int_range z -> conforms (TNamed "Int") (JInt z)
| Co_float b : conforms (TNamed "Float") (JFloat b)
| Co_float_int z : conforms (TNamed "Float") (JInt z)
| Co_string s : conforms (TNamed "String") (JStr s)
| Co_boolean b : conforms (TNamed "Boolean") (JBool b)
| Co_id_string s : conforms (TNamed "ID") (JStr s)
| Co_id_int z : conforms (TNamed "ID") (JInt z)
| Co_enum n vs s : In (DEnum n vs) ds -> In s vs -> conforms (TNamed n) (JStr s)
| Co_scalar n v : In (DScalar n) ds -> ~ In n builtins -> v <> JNull -> conforms (TNamed n) v
| Co_input n fs o :
    In (DInput n fs) ds ->
    (forall k v, In (k, v) o -> exists t d, In (k, (t, d)) fs) ->
    (forall k t d, In (k, (t, d)) fs ->
       (exists v, kget k o = Some v /\ conforms t v) \/
       (kget k o = None /\ (d = true \/ nullable t))) ->
    conforms (TNamed n) (JObj o).
End Conforms.

(** GraphQL's 32-bit integers, and the 64-bit ones. *)
Definition int32 (z : Z) : Prop := (-2147483648 <= z <= 2147483647)%Z.
Definition int64 (z : Z) : Prop := (-9223372036854775808 <= z <= 9223372036854775807)%Z.

(** The type bottoms out in a scalar or an enum. *)
Definition leaf_type (ds : list definition) (t : tnode) : Prop :=
  In (type_name t) builtins \/
  (exists vs, In (DEnum (type_name t) vs) ds) \/ In (DScalar (type_name t)) ds.

(** The value has no integer where an [ID] is wanted, and no integer beyond 64 bits where a
    [Float] is wanted. *)
Fixpoint ids_and_floats (t : tnode) (v : json) : Prop :=
  match v with
  | JArr l => (fix all (l : list json) : Prop :=
                 match l with [] => True | x :: l' => ids_and_floats t x /\ all l' end) l
  | JInt z => type_name t <> "ID" /\ (type_name t = "Float" -> int64 z)
  | _ => True
  end.

(** 6.1.2 CoerceVariableValues: the value of one variable. *)
Definition coerced (finite : N -> bool) (d : vardef) (vars : list (string * json)) : option json :=
  match kget (vd_name d) vars with
  | Some v => Some v
  | None => option_map (value_to_json finite) (vd_default d)
  end.

Definition coerced_all (finite : N -> bool) (defs : list vardef) (vars : list (string * json))
  : list (string * json) :=
  flat_map (fun d => match coerced finite d vars with
                     | Some v => [(vd_name d, v)]
                     | None => []
                     end) defs.

(** A variable may be left out only if its type is nullable; its value must be accepted. *)
Definition variable_ok (finite : N -> bool) (ok : tnode -> json -> Prop) (d : vardef)
  (vars : list (string * json)) : Prop :=
  match coerced finite d vars with
  | Some v => ok (vd_type d) v
  | None => nullable (vd_type d)
  end.

(** No map at all stands for an empty one. *)
Definition no_empty (l : list (string * json)) : option (list (string * json)) :=
  match l with [] => None | _ => Some l end.

(** The JSON value a literal stands for; floats JSON cannot write and variables stand for null. *)
Inductive denotes (finite : N -> bool) : gvalue -> json -> Prop :=
| De_null : denotes finite GNull JNull
| De_int z : denotes finite (GInt z) (JInt z)
| De_float b : finite b = true -> denotes finite (GFloat b) (JFloat b)
| De_odd_float b : finite b = false -> denotes finite (GFloat b) JNull
| De_bool b : denotes finite (GBool b) (JBool b)
| De_string s : denotes finite (GStr s) (JStr s)
| De_enum s : denotes finite (GEnum s) (JStr s)
| De_variable v : denotes finite (GVar v) JNull
| De_list l l' : Forall2 (denotes finite) l l' -> denotes finite (GList l) (JArr l')
| De_object o o' : Forall2 (fun kv kv' => fst kv' = fst kv /\ denotes finite (snd kv) (snd kv')) o o' ->
    denotes finite (GObj o) (JObj o').
