(** Variable coercion: /repo/bin/router/src/executor/variables/mod.rs, the schema metadata
    it consults (/repo/bin/router/src/executor/introspection/schema.rs) and the conversion of
    default values (/repo/bin/router/src/query_planner/ast/value.rs). *)
From Coq Require Import String List Bool ZArith NArith.
From Verif Require Import Ast.
Import ListNotations.
Local Open Scope string_scope.

(** [sonic_rs::Value].  An integer literal keeps its value; anything written with a fraction
    or exponent is a float (its bits). *)
Inductive json :=
| JNull
| JBool (b : bool)
| JInt (z : Z)
| JFloat (bits : N)
| JStr (s : string)
| JArr (l : list json)
| JObj (o : list (string * json)).

(** [Number::is_i64] and [is_f64]. *)
Definition is_i64 (v : json) : bool :=
  match v with JInt z => (-9223372036854775808 <=? z)%Z && (z <=? 9223372036854775807)%Z | _ => false end.
Definition is_f64 (v : json) : bool := match v with JFloat _ => true | _ => false end.

(** The first entry of an association list. *)
Fixpoint kget {A} (k : string) (l : list (string * A)) : option A :=
  match l with
  | [] => None
  | (k', v) :: l' => if String.eqb k k' then Some v else kget k l'
  end.
Definition kremove {A} (k : string) (l : list (string * A)) : list (string * A) :=
  filter (fun kv => negb (String.eqb k (fst kv))) l.
(** [HashMap::insert]; the order of entries never matters here. *)
Definition kput {A} (k : string) (v : A) (l : list (string * A)) : list (string * A) :=
  (k, v) :: kremove k l.

(** Type definitions of the consumer schema.  Fields of output types carry their type; the
    fields of input objects their type and whether they have a default. *)
Inductive definition :=
| DEnum (name : string) (values : list string)
| DObject (name : string) (fields : list (string * tnode))
| DInterface (name : string) (fields : list (string * tnode))
| DUnion (name : string) (members : list string)
| DScalar (name : string)
| DInput (name : string) (fields : list (string * (tnode * bool))).

(** schema.rs:291-301 *)
Fixpoint type_name (t : tnode) : string :=
  match t with TNamed n => n | TNonNull t => type_name t | TList t => type_name t end.

(** schema.rs:69-80, the two maps coercion reads. *)
Record metadata := {
  enum_values : list (string * list string);
  type_fields : list (string * list (string * string))
}.

Definition add_fields (fs : list (string * tnode)) (m : list (string * string))
  : list (string * string) :=
  fold_left (fun m kv => kput (fst kv) (type_name (snd kv)) m) fs m.

(** schema.rs:172-246 *)
Definition add_definition (m : metadata) (d : definition) : metadata :=
  match d with
  | DEnum n vs => {| enum_values := kput n vs (enum_values m); type_fields := type_fields m |}
  | DObject n fs =>
      let before := match kget n (type_fields m) with Some l => l | None => [] end in
      {| enum_values := enum_values m;
         type_fields := kput n (add_fields fs before) (type_fields m) |}
  | DInterface n fs =>
      {| enum_values := enum_values m;
         type_fields := kput n (add_fields fs []) (type_fields m) |}
  | DUnion _ _ | DScalar _ | DInput _ _ => m
  end.

Definition schema_metadata (ds : list definition) : metadata :=
  fold_left add_definition ds {| enum_values := []; type_fields := [] |}.

(** variables/mod.rs:9-45, without the texts. *)
Inductive coercion_error :=
| MissingNonNullableVariable (name : string)
| UnexpectedNull
| InvalidEnumValue (value type_name : string)
| ExpectedEnumString (type_name : string)
| MissingField (field_name type_name : string)
| ExpectedObject (type_name : string)
| ExpectedString
| ExpectedId
| ExpectedInteger
| ExpectedFloat
| ExpectedBoolean.

Definition is_non_null (t : tnode) : bool := match t with TNonNull _ => true | _ => false end.

(** variables/mod.rs:163-211 *)
Definition validate_scalar (n : string) (v : json) : option coercion_error :=
  if String.eqb n "String" then match v with JStr _ => None | _ => Some ExpectedString end
  else if String.eqb n "ID" then match v with JStr _ => None | _ => Some ExpectedId end
  else if String.eqb n "Int" then if is_i64 v then None else Some ExpectedInteger
  else if String.eqb n "Float" then if is_f64 v || is_i64 v then None else Some ExpectedFloat
  else if String.eqb n "Boolean" then match v with JBool _ => None | _ => Some ExpectedBoolean end
  else None.

(** variables/mod.rs:99-232; [None] is [Ok(())].  The recursion goes to a part of the value,
    or to a part of the type with the same value. *)
Fixpoint validate_runtime_value (m : metadata) (v : json) : tnode -> option coercion_error :=
  fix on_type (t : tnode) : option coercion_error :=
    match v with
    | JNull => if is_non_null t then Some UnexpectedNull else None
    | _ =>
        match t with
        | TNamed n =>
            match kget n (enum_values m) with
            | Some vs =>
                match v with
                | JStr s => if existsb (String.eqb s) vs then None else Some (InvalidEnumValue s n)
                | _ => Some (ExpectedEnumString n)
                end
            | None =>
                match kget n (type_fields m) with
                | Some fields =>
                    match v with
                    | JObj o =>
                        (fix each (fs : list (string * string)) : option coercion_error :=
                           match fs with
                           | [] => None
                           | (f, ty) :: fs' =>
                               match (fix look (o : list (string * json))
                                        : option (option coercion_error) :=
                                        match o with
                                        | [] => None
                                        | (k, fv) :: o' =>
                                            if String.eqb f k
                                            then Some (validate_runtime_value m fv (TNamed ty))
                                            else look o'
                                        end) o with
                               | Some (Some e) => Some e
                               | Some None => each fs'
                               | None => Some (MissingField f n)
                               end
                           end) fields
                    | _ => Some (ExpectedObject n)
                    end
                | None => validate_scalar n v
                end
            end
        | TNonNull t' => on_type t'
        | TList t' =>
            match v with
            | JArr items =>
                (fix all (l : list json) : option coercion_error :=
                   match l with
                   | [] => None
                   | x :: l' =>
                       match validate_runtime_value m x t' with
                       | Some e => Some e
                       | None => all l'
                       end
                   end) items
            | _ => on_type t'
            end
        end
    end.

(** ast/value.rs:129-164; [finite] tells whether [SonicValue::new_f64] accepts the bits. *)
Section Defaults.
Context (finite : N -> bool).
Fixpoint value_to_json (g : gvalue) : json :=
  match g with
  | GNull => JNull
  | GInt z => JInt z
  | GBool b => JBool b
  | GEnum s => JStr s
  | GFloat b => if finite b then JFloat b else JNull
  | GList l => JArr (map value_to_json l)
  | GObj o => JObj (map (fun kv => (fst kv, value_to_json (snd kv))) o)
  | GStr s => JStr s
  | GVar _ => JNull
  end.

Inductive result (A : Type) := Ok (a : A) | Err (e : coercion_error).
Arguments Ok {A} a.
Arguments Err {A} e.

(** variables/mod.rs:60-90; [vars] is the map variables are [remove]d from. *)
Fixpoint collect_each (m : metadata) (defs : list vardef) (vars : list (string * json))
  : result (list (string * json)) :=
  match defs with
  | [] => Ok []
  | d :: defs' =>
      let n := vd_name d in
      match kget n vars with
      | Some v =>
          match validate_runtime_value m v (vd_type d) with
          | Some e => Err e
          | None =>
              match collect_each m defs' (kremove n vars) with
              | Ok r => Ok ((n, v) :: r)
              | Err e => Err e
              end
          end
      | None =>
          match vd_default d with
          | Some g =>
              match validate_runtime_value m (value_to_json g) (vd_type d) with
              | Some e => Err e
              | None =>
                  match collect_each m defs' vars with
                  | Ok r => Ok ((n, value_to_json g) :: r)
                  | Err e => Err e
                  end
              end
          | None =>
              if is_non_null (vd_type d) then Err (MissingNonNullableVariable n)
              else collect_each m defs' vars
          end
      end
  end.

(** variables/mod.rs:48-97 *)
Definition collect_variables (m : metadata) (op : operation) (vars : list (string * json))
  : result (option (list (string * json))) :=
  match op_vars op with
  | None => Ok None
  | Some defs =>
      match collect_each m defs vars with
      | Err e => Err e
      | Ok [] => Ok None
      | Ok r => Ok (Some r)
      end
  end.
End Defaults.
Arguments Ok {A} a.
Arguments Err {A} e.
