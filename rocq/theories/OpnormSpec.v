(** When two operations are to count as the same. *)
From Coq Require Import String List ZArith Bool Permutation Sorted.
From Verif Require Import OpnormModel.
Import ListNotations.
Local Open Scope string_scope.
Local Open Scope list_scope.

(** What is asked of [sort_unstable_by]: it rearranges, it sorts, and it leaves what is sorted *)
Definition below {A} (cmp : A -> A -> comparison) (x y : A) : Prop := cmp x y <> Gt.
Definition preorder {A} (cmp : A -> A -> comparison) : Prop :=
  (forall x y, cmp x y = CompOpp (cmp y x)) /\ (forall x y z, below cmp x y -> below cmp y z -> below cmp x z).
Record sorts (usort : forall A : Type, (A -> A -> comparison) -> list A -> list A) : Prop := mksorts {
  s_perm : forall A cmp l, Permutation (usort A cmp l) l;
  s_sorted : forall A cmp l, preorder cmp -> StronglySorted (below cmp) (usort A cmp l);
  s_keep : forall A cmp l, preorder cmp -> StronglySorted (below cmp) l -> usort A cmp l = l }.

(** Alike: the same but for numbers, strings and aliases *)
Inductive alike_value : value -> value -> Prop :=
| al_variable n : alike_value (VVariable n) (VVariable n)
| al_int z z' : alike_value (VInt z) (VInt z')
| al_float t t' : alike_value (VFloat t) (VFloat t')
| al_string s s' : alike_value (VString s) (VString s')
| al_boolean b : alike_value (VBoolean b) (VBoolean b)
| al_null : alike_value VNull VNull
| al_enum n : alike_value (VEnum n) (VEnum n)
| al_list l l' : alike_values l l' -> alike_value (VList l) (VList l')
| al_object l l' : alike_args l l' -> alike_value (VObject l) (VObject l')
with alike_values : list value -> list value -> Prop :=
| als_nil : alike_values [] []
| als_cons v v' l l' : alike_value v v' -> alike_values l l' -> alike_values (v :: l) (v' :: l')
with alike_args : list (string * value) -> list (string * value) -> Prop :=
| ala_nil : alike_args [] []
| ala_cons n v v' l l' : alike_value v v' -> alike_args l l' -> alike_args ((n, v) :: l) ((n, v') :: l').
Definition alike_directive (d d' : directive) : Prop := d_name d = d_name d' /\ alike_args (d_args d) (d_args d').
Inductive alike_sel : selection -> selection -> Prop :=
| al_field a a' n args args' dirs dirs' sels sels' : alike_args args args' -> Forall2 alike_directive dirs dirs' -> alike_sels sels sels' ->
    alike_sel (Field a n args dirs sels) (Field a' n args' dirs' sels')
| al_spread n dirs dirs' : Forall2 alike_directive dirs dirs' -> alike_sel (Spread n dirs) (Spread n dirs')
| al_inline on dirs dirs' sels sels' : Forall2 alike_directive dirs dirs' -> alike_sels sels sels' -> alike_sel (Inline on dirs sels) (Inline on dirs' sels')
with alike_sels : list selection -> list selection -> Prop :=
| alss_nil : alike_sels [] []
| alss_cons s s' l l' : alike_sel s s' -> alike_sels l l' -> alike_sels (s :: l) (s' :: l').
Definition alike_var (v v' : vardef) : Prop :=
  v_name v = v_name v' /\ v_type v = v_type v' /\
  match v_default v, v_default v' with Some x, Some x' => alike_value x x' | None, None => True | _, _ => False end.
Inductive alike_def : definition -> definition -> Prop :=
| al_short s s' : alike_sels s s' -> alike_def (Short s) (Short s')
| al_operation k n vs vs' ds ds' s s' : Forall2 alike_var vs vs' -> Forall2 alike_directive ds ds' -> alike_sels s s' -> alike_def (Operation k n vs ds s) (Operation k n vs' ds' s')
| al_fragment n on ds ds' s s' : Forall2 alike_directive ds ds' -> alike_sels s s' -> alike_def (Fragment n on ds s) (Fragment n on ds' s').
Definition alike : document -> document -> Prop := Forall2 alike_def.

(** Rearranged: arguments, directives, selections, variables and definitions in another order.
    Not within values, not the directives of a spread, and not the arguments of directives of a fragment definition. *)
Definition moved_directive (d d' : directive) : Prop := d_name d = d_name d' /\ Permutation (d_args d) (d_args d').
Definition moved_directives (l l' : list directive) : Prop := exists m, Forall2 moved_directive l m /\ Permutation m l'.
Inductive moved_sel : selection -> selection -> Prop :=
| mv_field a n args args' dirs dirs' sels sels' : Permutation args args' -> moved_directives dirs dirs' -> moved_sels sels sels' ->
    moved_sel (Field a n args dirs sels) (Field a n args' dirs' sels')
| mv_spread n dirs : moved_sel (Spread n dirs) (Spread n dirs)
| mv_inline on dirs dirs' sels sels' : moved_directives dirs dirs' -> moved_sels sels sels' -> moved_sel (Inline on dirs sels) (Inline on dirs' sels')
with moved_sels : list selection -> list selection -> Prop :=
| mvs_nil : moved_sels [] []
| mvs_cons s s' l l' : moved_sel s s' -> moved_sels l l' -> moved_sels (s :: l) (s' :: l')
| mvs_perm l m m' : moved_sels l m -> Permutation m m' -> moved_sels l m'.
Inductive moved_def : definition -> definition -> Prop :=
| mv_short s s' : moved_sels s s' -> moved_def (Short s) (Short s')
| mv_operation k n vs vs' ds ds' s s' : Permutation vs vs' -> moved_directives ds ds' -> moved_sels s s' -> moved_def (Operation k n vs ds s) (Operation k n vs' ds' s')
| mv_fragment n on ds ds' s s' : Permutation ds ds' -> moved_sels s s' -> moved_def (Fragment n on ds s) (Fragment n on ds' s').
Definition moved (d d' : document) : Prop := exists m, Forall2 moved_def d m /\ Permutation m d'.

(** Nothing is there twice: no two inline fragments, or fields or spreads of one name, side by side *)
Inductive tag := TSpread (n : string) | TInline | TField (n : string).
Definition tag_of (s : selection) : tag := match s with Spread n _ => TSpread n | Inline _ _ _ => TInline | Field _ n _ _ _ => TField n end.
Definition clear_directives (l : list directive) : Prop := NoDup (map d_name l) /\ Forall (fun d => NoDup (map fst (d_args d))) l.
Fixpoint clear_sel (s : selection) : Prop :=
  match s with
  | Field _ _ args dirs sels => NoDup (map fst args) /\ clear_directives dirs /\ NoDup (map tag_of sels) /\
      (fix all (l : list selection) : Prop := match l with [] => True | x :: l' => clear_sel x /\ all l' end) sels
  | Spread _ _ => True
  | Inline _ dirs sels => clear_directives dirs /\ NoDup (map tag_of sels) /\
      (fix all (l : list selection) : Prop := match l with [] => True | x :: l' => clear_sel x /\ all l' end) sels
  end.
Definition clear_sels (l : list selection) : Prop := NoDup (map tag_of l) /\ Forall clear_sel l.
Definition clear_def (d : definition) : Prop :=
  match d with
  | Short s => clear_sels s
  | Operation _ _ vs ds s => NoDup (map v_name vs) /\ clear_directives ds /\ clear_sels s
  | Fragment _ _ ds s => NoDup (map d_name ds) /\ clear_sels s
  end.
(** One operation, and fragments of different names *)
Definition def_tag (d : definition) : option string := match d with Fragment n _ _ _ => Some n | _ => None end.
Definition clear (d : document) : Prop := NoDup (map def_tag d) /\ Forall clear_def d.
