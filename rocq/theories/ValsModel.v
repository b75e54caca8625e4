(* The rule on values of arguments, lib/graphql-tools/src/validation/rules/values_of_correct_type.rs *)
From Coq Require Import String List Bool ZArith NArith.
From Verif Require Import Ast ConsumerModel IntroModel CondModel NormModel WalkModel.
Import ListNotations.
Local Open Scope string_scope.
Local Open Scope list_scope.

Inductive verr :=
| NullFor (t : tnode)                               (* Expected value of type t, found null *)
| Expected (t : string) (v : gvalue)                (* Expected value of type t, found v. *)
| NoSuchValue (s e : string)                        (* Value s does not exist in e enum. *)
| NotEnum (e : string) (v : gvalue)                 (* Enum e cannot represent non-enum value: v *)
| MissingField (o f : string) (t : tnode)           (* Field o.f of required type t was not provided. *)
| UndefinedField (f o : string).                    (* Field f is not defined by type o. *)

(** lines 24-26 *)
Definition is_custom_scalar (n : string) : bool :=
  negb (existsb (String.eqb n) ["String"; "Int"; "Float"; "Boolean"; "ID"]).
(** the arms of lines 50-57 *)
Definition scalar_accepts (n : string) (v : gvalue) : bool :=
  match v with
  | GInt _ => String.eqb n "Int" || String.eqb n "ID" || String.eqb n "Float"
  | GStr _ => String.eqb n "ID" || String.eqb n "String"
  | GFloat _ => String.eqb n "Float"
  | GBool _ => String.eqb n "Boolean"
  | _ => false
  end.
(** ast/ext.rs: [is_leaf_type] *)
Definition leaf_type (t : typedef) : bool := match t with Scalar _ _ _ | Enum _ _ _ _ => true | _ => false end.
(** ast/ext.rs:288-296 *)
Definition input_required (f : input_value) : bool :=
  match iv_type f, iv_default f with TNonNull _, None => true | _, _ => false end.

Section Rule.
  Variable sch : list definition.

  (** lines 28-100 *)
  Definition validate_value (c : ctx) (v : gvalue) : list verr :=
    match c_input c with
    | None => []
    | Some t =>
        let name := inner_type t in
        match type_by_name sch name with
        | None => []
        | Some td =>
            (if leaf_type td then [] else [Expected name v])
            ++ match td with
               | Scalar n _ _ => if scalar_accepts n v then [] else if is_custom_scalar n then [] else [Expected n v]
               | Enum n _ _ vs =>
                   match v with
                   | GEnum s => if existsb (fun x => String.eqb (ev_name x) s) vs then [] else [NoSuchValue s n]
                   | _ => [NotEnum n v]
                   end
               | _ => []
               end
        end
    end.

  (** lines 104-120 *)
  Definition null_value (c : ctx) : list verr :=
    match c_input c with Some (TNonNull t) => [NullFor (TNonNull t)] | _ => [] end.

  (** lines 122-163 *)
  Definition object_value (c : ctx) (o : list (string * gvalue)) : list verr :=
    match typed sch (c_input c) with
    | Some (InputObject n _ _ fs) =>
        flat_map (fun f => if input_required f && negb (existsb (fun x => String.eqb (fst x) (iv_name f)) o)
                           then [MissingField n (iv_name f) (iv_type f)] else []) fs
        ++ flat_map (fun x => if existsb (fun f => String.eqb (iv_name f) (fst x)) fs then [] else [UndefinedField (fst x) n]) o
    | _ => []
    end.

  (** lines 103-181 *)
  Definition value_errors (x : call) : list verr :=
    match snd x with
    | EnterNull => null_value (fst x)
    | EnterObject o => object_value (fst x) o
    | EnterEnum s => validate_value (fst x) (GEnum s)
    | EnterScalar v => validate_value (fst x) v
    | _ => []
    end.
  Definition values_of_correct_type : visitor verr := stateless value_errors.
End Rule.
