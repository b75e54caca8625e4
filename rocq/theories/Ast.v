(** The planner's GraphQL operation AST.
    Models bin/router/src/query_planner/ast/{value,arguments,selection_set,
    selection_item,operation}.rs and [TypeNode] of state/supergraph_state.rs:1097. *)
From Coq Require Import String List NArith ZArith Bool.
Import ListNotations.

(** ast/value.rs:12-23.  Floats are kept as their bit pattern; the [BTreeMap] of an
    object is a list of entries (sorted in the code). *)
Inductive gvalue :=
| GVar (name : string)
| GInt (z : Z)
| GFloat (bits : N)
| GStr (s : string)
| GBool (b : bool)
| GNull
| GEnum (s : string)
| GList (l : list gvalue)
| GObj (o : list (string * gvalue)).

(** state/supergraph_state.rs:1097-1101 *)
Inductive tnode := TNamed (n : string) | TList (t : tnode) | TNonNull (t : tnode).

(** ast/selection_set.rs (FieldSelection, InlineFragmentSelection) and
    ast/selection_item.rs:16-20. *)
Inductive sel :=
| SField (name : string) (alias : option string) (args : option (list (string * gvalue)))
         (include_if skip_if : option string) (omit : bool) (sub : list sel)
| SFrag (type_condition : string) (include_if skip_if : option string) (sub : list sel)
| SSpread (name : string).

Inductive opkind := KQuery | KMutation | KSubscription.

(** ast/operation.rs:18-26 and VariableDefinition. *)
Record vardef := mkvardef { vd_name : string; vd_type : tnode; vd_default : option gvalue }.
Record operation := mkop {
  op_name : option string;
  op_kind : option opkind;
  op_sels : list sel;
  op_vars : option (list vardef) }.

Section SelInd.
  Variable P : sel -> Prop.
  Hypothesis Hf : forall n a args i s o sub, Forall P sub -> P (SField n a args i s o sub).
  Hypothesis Hg : forall t i s sub, Forall P sub -> P (SFrag t i s sub).
  Hypothesis Hs : forall n, P (SSpread n).
  Fixpoint sel_ind' (x : sel) : P x :=
    let go := (fix go (l : list sel) : Forall P l :=
                 match l with
                 | [] => Forall_nil _
                 | y :: l' => Forall_cons y (sel_ind' y) (go l')
                 end) in
    match x with
    | SField n a args i s o sub => Hf n a args i s o sub (go sub)
    | SFrag t i s sub => Hg t i s sub (go sub)
    | SSpread n => Hs n
    end.
End SelInd.

Section GvalInd.
  Variable P : gvalue -> Prop.
  Hypothesis Hvar : forall n, P (GVar n).
  Hypothesis Hint : forall z, P (GInt z).
  Hypothesis Hfl : forall b, P (GFloat b).
  Hypothesis Hstr : forall s, P (GStr s).
  Hypothesis Hb : forall b, P (GBool b).
  Hypothesis Hn : P GNull.
  Hypothesis He : forall s, P (GEnum s).
  Hypothesis Hl : forall l, Forall P l -> P (GList l).
  Hypothesis Ho : forall o, Forall (fun kv => P (snd kv)) o -> P (GObj o).
  Fixpoint gvalue_ind' (x : gvalue) : P x :=
    match x with
    | GVar n => Hvar n
    | GInt z => Hint z
    | GFloat b => Hfl b
    | GStr s => Hstr s
    | GBool b => Hb b
    | GNull => Hn
    | GEnum s => He s
    | GList l => Hl l ((fix go (l : list gvalue) : Forall P l :=
                          match l with
                          | [] => Forall_nil _
                          | y :: l' => Forall_cons y (gvalue_ind' y) (go l')
                          end) l)
    | GObj o => Ho o ((fix go (o : list (string * gvalue)) : Forall (fun kv => P (snd kv)) o :=
                         match o with
                         | [] => Forall_nil _
                         | kv :: o' => Forall_cons kv (gvalue_ind' (snd kv)) (go o')
                         end) o)
    end.
End GvalInd.
