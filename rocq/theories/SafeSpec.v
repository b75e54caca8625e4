(** What merging the selections of two fetch steps should mean. *)
From Coq Require Import String List NArith Bool.
From Verif Require Import Ast QplanModel SafeModel.
Import ListNotations.
Local Open Scope string_scope.
Local Open Scope list_scope.

(** A selection set is a set of questions: the paths through its tree.  Every step tells
    the response name, the field, its arguments, and its conditions. *)
Inductive step :=
| OnField (key name : string) (args : option (list (string * gvalue))) (inc skip : option string)
| OnType (tc : string) (inc skip : option string)
| OnSpread (name : string).

Definition response_name (name : string) (alias : option string) : string :=
  match alias with None => name | Some a => a end.

Definition step_of (x : sel) : step :=
  match x with
  | SField n a args inc skip _ _ => OnField (response_name n a) n args inc skip
  | SFrag tc inc skip _ => OnType tc inc skip
  | SSpread n => OnSpread n
  end.
Definition subs (x : sel) : list sel :=
  match x with SField _ _ _ _ _ _ s => s | SFrag _ _ _ s => s | SSpread _ => [] end.

Inductive asks : list sel -> list step -> Prop :=
| asks_here l x : In x l -> asks l [step_of x]
| asks_in l x p : In x l -> asks (subs x) p -> asks l (step_of x :: p).

(** The same, when an empty list of arguments is the same as none. *)
Definition loosen (s : step) : step :=
  match s with
  | OnField k n (Some []) inc skip => OnField k n None inc skip
  | s => s
  end.
Definition asks_loosely (l : list sel) (p : list step) : Prop :=
  exists q, asks l q /\ map loosen q = p.

(** A place at one level: one response name (or one type) under one condition. *)
Inductive slot :=
| FieldAt (key : string) (inc skip : option string)
| TypeAt (tc : string) (inc skip : option string).
Definition slot_of (x : sel) : option slot :=
  match x with
  | SField n a _ inc skip _ _ => Some (FieldAt (response_name n a) inc skip)
  | SFrag tc inc skip _ => Some (TypeAt tc inc skip)
  | SSpread _ => None
  end.
Definition slots (l : list sel) : list slot :=
  flat_map (fun x => match slot_of x with Some s => [s] | None => [] end) l.

(** On every level, at most one item in each place. *)
Inductive tidy : list sel -> Prop :=
| Tidy l : NoDup (slots l) -> (forall x, In x l -> tidy (subs x)) -> tidy l.

(** The names kept for the planner. *)
Definition reserved (k : string) : Prop := String.prefix "_internal_qp_alias_" k = true.
Definition unreserved (l : list sel) : Prop :=
  forall p k n args inc skip, asks l (p ++ [OnField k n args inc skip]) -> ~ reserved k.

(** No two different fields under one response name, whatever their conditions: what a
    subgraph demands of an operation (at one level, without looking into fragments). *)
Definition no_rivals (l : list sel) : Prop :=
  forall k n args inc skip n' args' inc' skip',
    asks l [OnField k n args inc skip] -> asks l [OnField k n' args' inc' skip'] ->
    n = n' /\ args = args'.

(** A renaming gives some of the asked fields (told by their path) a new response name. *)
Definition renaming := list step -> option string.
Definition rekey (s : step) (o : option string) : step :=
  match s, o with
  | OnField _ n args inc skip, Some al => OnField al n args inc skip
  | s, _ => s
  end.
Fixpoint moved (rho : renaming) (p : list step) : list step :=
  match p with
  | [] => []
  | s :: p' => rekey s (rho [s]) :: moved (fun q => rho (s :: q)) p'
  end.

(** Where both sides have a field in the same place, written with the same alias (or both
    without) and with arguments of the same hash, it is the same field. *)
Inductive honest (h : option (list (string * gvalue)) -> N) : list sel -> list sel -> Prop :=
| Honest t s :
    (forall n a args inc skip o sub n' args' o' sub',
       In (SField n a args inc skip o sub) t -> In (SField n' a args' inc skip o' sub') s ->
       response_name n a = response_name n' a -> h args = h args' ->
       n = n' /\ args = args' /\ honest h sub sub') ->
    (forall tc inc skip sub sub',
       In (SFrag tc inc skip sub) t -> In (SFrag tc inc skip sub') s -> honest h sub sub') ->
    honest h t s.

(** The other side asks, in the same place, under the same response name and condition;
    it asks for another field or other arguments, unless one of the two is written with
    the field's own name as alias. *)
Definition rivalled (other : list sel) (q : list step) : Prop :=
  exists q0 k n args inc skip n' args',
    q = q0 ++ [OnField k n args inc skip] /\ asks other (q0 ++ [OnField k n' args' inc skip]) /\
    (n = n' -> args = args' -> n = k).

(** A way down a selection set along a path: the marks of lists are passed over, every
    other segment is one step. *)
Definition condition (inc skip : option string) : option cond :=
  match inc, skip with
  | Some i, Some s => Some (CSkipAndInclude s i)
  | Some i, None => Some (CInclude i)
  | None, Some s => Some (CSkip s)
  | None, None => None
  end.
Inductive along (h : option (list (string * gvalue)) -> N) : list seg -> list step -> Prop :=
| along_end : along h [] []
| along_items path way : along h path way -> along h (GItems :: path) way
| along_field n al n' args inc skip path way :
    along h path way ->
    along h (GField n al (h args) (condition inc skip) :: path)
            (OnField (response_name n al) n' args inc skip :: way)
| along_type names tc inc skip path way :
    In tc names -> along h path way ->
    along h (GType names (condition inc skip) :: path) (OnType tc inc skip :: way).

(** Every type segment names one type. *)
Definition one_type (g : seg) : Prop :=
  match g with GType names _ => exists tc, names = [tc] | _ => True end.
