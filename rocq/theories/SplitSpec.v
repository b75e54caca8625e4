(** What it means to split an operation. *)
From Coq Require Import String List Bool.
From Verif Require Import Ast.
Import ListNotations.
Local Open Scope string_scope.

(** Fields the router answers itself *)
Definition about_schema (name : string) : Prop := (exists s, name = "__" ++ s) /\ name <> "__typename".

(** An operation asks for things at places. A place is the way from the root: fields and fragments, with what stands on them. *)
Inductive step :=
| Into (name : string) (alias : option string) (args : option (list (string * gvalue))) (include_if skip_if : option string) (omit : bool)
| On (type_condition : string) (include_if skip_if : option string).
(** What is asked for there: a field of the schema of schemas (with all that is asked of it), a field without selections, or
    the contents of a fragment *)
Inductive wanted :=
| Schema (x : sel)
| Plain (name : string) (alias : option string) (args : option (list (string * gvalue))) (include_if skip_if : option string) (omit : bool)
| Spread (name : string).
Inductive ours : wanted -> Prop := ours_schema x : ours (Schema x).

(** [wants l w]: [w] lists what the selections ask for, and where, in their order. *)
Inductive wants : list sel -> list (list step * wanted) -> Prop :=
| wants_nil : wants [] []
| wants_schema name alias args i s o sub l w : about_schema name -> wants l w ->
    wants (SField name alias args i s o sub :: l) (([], Schema (SField name alias args i s o sub)) :: w)
| wants_plain name alias args i s o l w : ~ about_schema name -> wants l w ->
    wants (SField name alias args i s o [] :: l) (([], Plain name alias args i s o) :: w)
| wants_below name alias args i s o sub l w' w : ~ about_schema name -> sub <> [] -> wants sub w' -> wants l w ->
    wants (SField name alias args i s o sub :: l) (map (fun p => (Into name alias args i s o :: fst p, snd p)) w' ++ w)
| wants_on t i s sub l w' w : wants sub w' -> wants l w ->
    wants (SFrag t i s sub :: l) (map (fun p => (On t i s :: fst p, snd p)) w' ++ w)
| wants_spread n l w : wants l w -> wants (SSpread n :: l) (([], Spread n) :: w).

(** Every selection is there for something. *)
Inductive lean : sel -> Prop :=
| lean_schema name alias args i s o sub : about_schema name -> lean (SField name alias args i s o sub)
| lean_plain name alias args i s o : lean (SField name alias args i s o [])
| lean_field name alias args i s o sub : Forall lean sub -> sub <> [] -> lean (SField name alias args i s o sub)
| lean_fragment t i s sub : Forall lean sub -> sub <> [] -> lean (SFrag t i s sub)
| lean_spread n : lean (SSpread n).

(** The members of a list that satisfy a predicate, in their order *)
Inductive chosen {A} (P : A -> Prop) : list A -> list A -> Prop :=
| chosen_nil : chosen P [] []
| chosen_skip a l l' : ~ P a -> chosen P l l' -> chosen P (a :: l) l'
| chosen_keep a l l' : P a -> chosen P l l' -> chosen P (a :: l) (a :: l').

(** * Variables *)
Inductive in_value (n : string) : gvalue -> Prop :=
| in_variable : in_value n (GVar n)
| in_list l v : In v l -> in_value n v -> in_value n (GList l)
| in_object o k v : In (k, v) o -> in_value n v -> in_value n (GObj o).
Inductive in_selection (n : string) : sel -> Prop :=
| in_argument name alias args i s o sub k v : In (k, v) args -> in_value n v -> in_selection n (SField name alias (Some args) i s o sub)
| in_field_include name alias args s o sub : in_selection n (SField name alias args (Some n) s o sub)
| in_field_skip name alias args i o sub : in_selection n (SField name alias args i (Some n) o sub)
| in_field_below name alias args i s o sub x : In x sub -> in_selection n x -> in_selection n (SField name alias args i s o sub)
| in_fragment_include t s sub : in_selection n (SFrag t (Some n) s sub)
| in_fragment_skip t i sub : in_selection n (SFrag t i (Some n) sub)
| in_fragment_below t i s sub x : In x sub -> in_selection n x -> in_selection n (SFrag t i s sub).
Definition in_selections (n : string) (l : list sel) : Prop := exists x, In x l /\ in_selection n x.
(** Every variable used is defined. *)
Definition variables_defined (op : operation) : Prop :=
  forall n, in_selections n (op_sels op) -> exists l d, op_vars op = Some l /\ In d l /\ vd_name d = n.
