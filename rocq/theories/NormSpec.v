(** What normalization should mean.  Written without looking at how the passes work. *)
From Coq Require Import String List Bool Permutation Relations.
From Verif Require Import Ast CoerceModel CondModel NormModel.
Import ListNotations.
Local Open Scope string_scope.
Local Open Scope list_scope.

(** * Fragment spreads *)
Fixpoint mentions (s : nsel) : list string :=
  match s with
  | NField _ _ _ _ sub => flat_map mentions sub
  | NSpread n _ => [n]
  | NInline _ _ sub => flat_map mentions sub
  end.
Definition sels_of (d : ndef) : list nsel := match d with NOp _ _ s => s | NFrag _ _ s => s end.
Definition doc_mentions (ds : list ndef) (n : string) : Prop := exists d, In d ds /\ In n (flat_map mentions (sels_of d)).
Definition defined (m : fragments) (n : string) : Prop := exists f, kget n m = Some f.
(** The selections of [a] spread [b]. *)
Definition edge (m : fragments) (a b : string) : Prop :=
  exists f, kget a m = Some f /\ In b (flat_map mentions (fr_sels f)).
Definition on_cycle (m : fragments) (n : string) : Prop := clos_trans string (edge m) n n.
(** [n] spreads, perhaps through others, a fragment that spreads itself. *)
Definition reaches_cycle (m : fragments) (n : string) : Prop :=
  exists c, clos_refl_trans string (edge m) n c /\ on_cycle m c.

(** * What an operation selects *)
(** One response field: the type of the object it is on, its key, its name and its arguments. *)
Record step := mkstep { st_type : string; st_key : string; st_name : string; st_args : list (string * gvalue) }.
Definition response_key (alias : option string) (name : string) : string :=
  match alias with Some a => a | None => name end.

(** Whether a directive lets its selection through, for some values of the variables. *)
Definition lawful (on : directive -> bool) : Prop :=
  forall d, (d_name d = "skip" -> if_literal (d_args d) = Some true -> on d = false) /\
            (d_name d = "include" -> if_literal (d_args d) = Some false -> on d = false).
(** The meaning of [@skip] and [@include]. *)
Definition condition (vars : string -> bool) (args : list (string * gvalue)) (default : bool) : bool :=
  match if_literal args with
  | Some b => b
  | None => match kget "if" args with Some (GVar v) => vars v | _ => default end
  end.
Definition enabled (vars : string -> bool) (d : directive) : bool :=
  if String.eqb (d_name d) "skip" then negb (condition vars (d_args d) false)
  else if String.eqb (d_name d) "include" then condition vars (d_args d) true
  else true.

Section Meaning.
Context (sc : schema) (on : directive -> bool) (env : fragments).
(** An object of type [t] satisfies the type condition [c]. *)
Definition is_a (t c : string) : Prop :=
  t = c \/ (exists ms, kget c sc = Some (DUnion ms) /\ In t ms) \/
  (exists fs is gs, kget t sc = Some (DObject fs is) /\ In c is /\ kget c sc = Some (DInterface gs)).
Definition applies (tc : option string) (p : list step) : Prop :=
  match p with
  | [] => False
  | st :: _ => match tc with Some c => is_a (st_type st) c | None => True end
  end.
Definition all_on (ds : list directive) : Prop := forallb on ds = true.

(** The selection asks for the response field at the end of the path. *)
Inductive picks : nsel -> list step -> Prop :=
| picks_field al n args dirs sub t args' :
    all_on dirs -> Permutation args args' -> picks (NField al n args dirs sub) [mkstep t (response_key al n) n args']
| picks_below al n args dirs sub t args' s p :
    all_on dirs -> Permutation args args' -> In s sub -> picks s p ->
    picks (NField al n args dirs sub) (mkstep t (response_key al n) n args' :: p)
| picks_inline tc dirs sub s p :
    all_on dirs -> applies tc p -> In s sub -> picks s p -> picks (NInline tc dirs sub) p
| picks_spread n dirs f s p :
    all_on dirs -> kget n env = Some f -> applies (Some (fr_tc f)) p -> In s (fr_sels f) -> picks s p ->
    picks (NSpread n dirs) p.
Definition selects (l : list nsel) (p : list step) : Prop := exists s, In s l /\ picks s p.
End Meaning.

(** * Paths that can occur in a response *)
(** The object types a value of type [t] can have. *)
Definition runtime (sc : schema) (t obj : string) : Prop :=
  (exists fs is, kget obj sc = Some (DObject fs is)) /\ is_a sc obj t.
Definition field_in (sc : schema) (t f u : string) : Prop :=
  exists d, kget t sc = Some d /\ kget f (fields_of d) = Some u.
(** The type of each object fits the type of the field above it; introspection fields are not in the schema. *)
Inductive typed (sc : schema) : string -> list step -> Prop :=
| typed_end t st : runtime sc t (st_type st) -> typed sc t [st]
| typed_meta t st p : runtime sc t (st_type st) -> introspective (st_name st) = true -> typed sc t (st :: p)
| typed_field t st p u : runtime sc t (st_type st) -> field_in sc (st_type st) (st_name st) u -> typed sc u p ->
    typed sc t (st :: p).

(** What makes a schema valid: the members of unions are objects, and an object's field has a type that
    fits the interface's. *)
Record schema_ok (sc : schema) : Prop := {
  ok_names : NoDup (map fst sc);
  ok_members : forall c ms obj, kget c sc = Some (DUnion ms) -> In obj ms -> exists fs is, kget obj sc = Some (DObject fs is);
  ok_fields : forall i gs obj f t u, kget i sc = Some (DInterface gs) -> runtime sc i obj ->
    kget f gs = Some t -> field_in sc obj f u -> forall x, runtime sc u x -> runtime sc t x }.

(** The operation a request runs: the one it names, or else the first. *)
Definition chosen (operation_name : option string) (ds : list ndef) : option ndef :=
  find (fun d => match d, operation_name with
                 | NOp _ _ _, None => true
                 | NOp _ (Some n) _, Some m => String.eqb n m
                 | _, _ => false
                 end) ds.

(** * Operations that fit the schema *)
Section Fits.
Context (sc : schema) (env : fragments).
Definition known (t : string) : Prop := exists d, kget t sc = Some d.
(** Fields exist on the type they are selected on; conditions and spreads name something that exists. *)
Inductive fits : string -> nsel -> Prop :=
| fits_meta t al n args dirs sub : introspective n = true -> fits t (NField al n args dirs sub)
| fits_field t al n args dirs sub u : field_in sc t n u -> (forall s, In s sub -> fits u s) ->
    fits t (NField al n args dirs sub)
| fits_cond t c dirs sub : known c -> (forall s, In s sub -> fits c s) -> fits t (NInline (Some c) dirs sub)
| fits_bare t dirs sub : (forall s, In s sub -> fits t s) -> fits t (NInline None dirs sub)
| fits_spread t n dirs : defined env n -> fits t (NSpread n dirs).
End Fits.

(** Field types exist, and an object has the fields of its interfaces; [narrows u t] is the subtype relation. *)
Record narrowing (sc : schema) (narrows : string -> string -> Prop) : Prop := {
  nr_refl : forall t, narrows t t;
  nr_object : forall t obj, runtime sc t obj -> narrows obj t;
  nr_field : forall t u f w, narrows u t -> field_in sc t f w -> exists w', field_in sc u f w' /\ narrows w' w }.
Definition complete (sc : schema) : Prop :=
  (forall t f u, field_in sc t f u -> known sc u) /\ exists narrows, narrowing sc narrows.

Definition valid (sc : schema) (root_type : opkind -> option string) (name : option string) (ds : list ndef) : Prop :=
  (exists k n s root, chosen name ds = Some (NOp k n s) /\ root_type k = Some root /\ known sc root /\
     forall x, In x s -> fits sc (fragment_map ds) root x) /\
  (forall n f, kget n (fragment_map ds) = Some f ->
     known sc (fr_tc f) /\ forall x, In x (fr_sels f) -> fits sc (fragment_map ds) (fr_tc f) x) /\
  (forall n, doc_mentions ds n -> defined (fragment_map ds) n) /\
  (forall n, ~ on_cycle (fragment_map ds) n).
