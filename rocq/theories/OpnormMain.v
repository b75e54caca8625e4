(** Proofs about sorting operations. *)
From Coq Require Import String List ZArith Bool Arith Permutation Sorted Lia.
From Verif Require Import OpnormModel OpnormSpec OpnormProofs.
Import ListNotations.
Local Open Scope string_scope.
Local Open Scope list_scope.

Lemma map_fix {A} (f : A -> A) l : map f l = l <-> (forall x, In x l -> f x = x).
Proof.
  induction l as [|x l IH]; cbn; [split; [intros _ x [] | reflexivity]|]. split.
  - intros E. injection E as E1 E2. intros y [<-|I]; [exact E1 | apply IH; assumption].
  - intros H. f_equal; [apply H; left; reflexivity | apply IH; intros y I; apply H; right; exact I].
Qed.
Lemma all_clear l : (fix all (l : list selection) : Prop := match l with [] => True | x :: l' => clear_sel x /\ all l' end) l <-> Forall clear_sel l.
Proof. induction l as [|x l IH]; [split; [constructor | intros _; exact Logic.I]|]. rewrite Forall_cons_iff, <- IH. reflexivity. Qed.

(** Stripping keeps rearrangements and clarity *)
Lemma strip_moved_directives l l' : moved_directives l l' -> moved_directives (map strip_directive l) (map strip_directive l').
Proof.
  intros (m & F & P). exists (map strip_directive m). split; [|apply Permutation_map; exact P]. clear P. induction F as [|d d' l m (N & A) F IH]; cbn; constructor; [|exact IH].
  split; cbn; [exact N | apply Permutation_map; exact A].
Qed.
Lemma strip_moved_sels : (forall s s', moved_sel s s' -> moved_sel (strip_sel s) (strip_sel s')) /\
  (forall l l', moved_sels l l' -> moved_sels (map strip_sel l) (map strip_sel l')).
Proof.
  apply moved_sels_ind; intros; cbn; try (constructor; auto using strip_moved_directives; apply Permutation_map; assumption).
  apply (mvs_perm _ (map strip_sel m)); [assumption | apply Permutation_map; assumption].
Qed.
Lemma strip_moved d d' : moved d d' -> moved (strip d) (strip d').
Proof.
  intros (m & F & P). exists (strip m). split; [|apply Permutation_map; exact P]. clear P. unfold strip. induction F as [|x y l m H F IH]; cbn; constructor; [|exact IH].
  destruct H; cbn; constructor; auto using strip_moved_directives; try (apply Permutation_map; assumption); apply strip_moved_sels; assumption.
Qed.
Lemma strip_args_names l : map fst (strip_args l) = map fst l.
Proof. unfold strip_args. rewrite map_map. reflexivity. Qed.
Lemma strip_clear_directives l : clear_directives l -> clear_directives (map strip_directive l).
Proof.
  intros (N & F). split; [rewrite map_map; exact N|]. rewrite Forall_map. refine (Forall_impl _ _ F). intros d D. cbn. rewrite strip_args_names. exact D.
Qed.
Lemma strip_tags l : map tag_of (map strip_sel l) = map tag_of l.
Proof. rewrite map_map. apply map_ext. intros []; reflexivity. Qed.
Lemma strip_clear_sel s : clear_sel s -> clear_sel (strip_sel s).
Proof.
  induction s as [a n args dirs sels H|n dirs|on dirs sels H] using sel_ind'; cbn; rewrite ?all_clear, ?strip_args_names, ?strip_tags; auto.
  - intros (A & D & T & C). repeat split; try apply strip_clear_directives; auto. rewrite Forall_map. rewrite Forall_forall in *. auto.
  - intros (D & T & C). repeat split; try apply strip_clear_directives; auto. rewrite Forall_map. rewrite Forall_forall in *. auto.
Qed.
Lemma strip_clear_sels l : clear_sels l -> clear_sels (map strip_sel l).
Proof. intros (T & C). split; [rewrite strip_tags; exact T|]. rewrite Forall_map. exact (Forall_impl _ strip_clear_sel C). Qed.
Lemma strip_clear d : clear d -> clear (strip d).
Proof.
  intros (T & C). unfold strip. split.
  - rewrite map_map. erewrite map_ext; [exact T|]. intros []; reflexivity.
  - rewrite Forall_map. refine (Forall_impl _ _ C). intros [s|k n vs ds s|n on ds s]; cbn; rewrite ?map_map; [apply strip_clear_sels| |].
    + intros (V & D & S). repeat split; try apply strip_clear_directives; try apply strip_clear_sels; auto.
    + intros (D & S). split; [exact D | apply strip_clear_sels; exact S].
Qed.

Section Sort.
  Variable usort : forall A : Type, (A -> A -> comparison) -> list A -> list A.
  Hypothesis H : sorts usort.

  Lemma usort_eq {A K} cmp (k : A -> K) l m : preorder cmp -> (forall x y, cmp x y = Eq -> k x = k y) -> NoDup (map k l) -> Permutation l m -> usort A cmp l = usort A cmp m.
  Proof.
    intros C E U P. apply (sorted_same cmp); auto using (s_sorted usort H).
    - rewrite (s_perm usort H A cmp l), (s_perm usort H A cmp m). exact P.
    - intros x y X Y Q. apply (nodup_inj k l); auto; [apply (Permutation_in x (s_perm usort H A cmp l) X) | apply (Permutation_in y (s_perm usort H A cmp l) Y)].
  Qed.
  Lemma usort_keep {A} cmp l : preorder cmp -> usort A cmp (usort A cmp l) = usort A cmp l.
  Proof. intros C. apply (s_keep usort H); auto. apply (s_sorted usort H). exact C. Qed.
  Lemma usort_fix {A} cmp (f : A -> A) l : (forall x, In x l -> f x = x) -> map f (usort A cmp l) = usort A cmp l.
  Proof. intros F. apply map_fix. intros x I. apply F. exact (Permutation_in x (s_perm usort H A cmp l) I). Qed.
  Lemma usort_twice {A} cmp (f : A -> A) l : preorder cmp -> (forall x, In x l -> f (f x) = f x) -> usort A cmp (map f (usort A cmp (map f l))) = usort A cmp (map f l).
  Proof. intros C F. rewrite usort_fix; [apply usort_keep; exact C|]. intros x I. apply in_map_iff in I as (y & <- & I). auto. Qed.

  (** Sorting again changes nothing *)
  Lemma sort_directive_twice d : sort_directive usort (sort_directive usort d) = sort_directive usort d.
  Proof. unfold sort_directive. cbn. f_equal. apply usort_keep. exact args_preorder. Qed.
  Lemma sort_directives_twice l : sort_directives usort (sort_directives usort l) = sort_directives usort l.
  Proof. apply usort_twice; [exact dirs_preorder|]. intros x _. apply sort_directive_twice. Qed.
  Lemma sort_sel_twice s : sort_sel usort (sort_sel usort s) = sort_sel usort s.
  Proof.
    induction s as [a n args dirs sels X|n dirs|on dirs sels X] using sel_ind'; cbn; [| reflexivity |]; rewrite Forall_forall in X; f_equal;
      try apply sort_directives_twice; try (apply usort_twice; [exact sels_preorder | exact X]). apply usort_keep. exact args_preorder.
  Qed.
  Lemma sort_sels_twice l : sort_sels usort (sort_sels usort l) = sort_sels usort l.
  Proof. apply usort_twice; [exact sels_preorder|]. intros x _. apply sort_sel_twice. Qed.
  Lemma sort_doc_twice d : sort_doc usort (sort_doc usort d) = sort_doc usort d.
  Proof.
    apply usort_twice; [exact defs_preorder|]. intros [s|k n vs ds s|n on ds s] _; cbn; f_equal; try apply sort_sels_twice; try apply sort_directives_twice; apply usort_keep;
      [exact vars_preorder | exact dirs_preorder].
  Qed.

  (** Sorting keeps what is stripped *)
  Lemma bare_args l : strip_args l = l -> strip_args (sort_args usort l) = sort_args usort l.
  Proof. intros E. apply usort_fix. apply map_fix. exact E. Qed.
  Lemma bare_directive d : strip_directive d = d -> strip_directive (sort_directive usort d) = sort_directive usort d.
  Proof. destruct d as [n a]. intros E. injection E as E. unfold strip_directive, sort_directive. cbn. rewrite bare_args by exact E. reflexivity. Qed.
  Lemma bare_directives l : map strip_directive l = l -> map strip_directive (sort_directives usort l) = sort_directives usort l.
  Proof. intros E. rewrite map_fix in E. apply usort_fix. intros x I. apply in_map_iff in I as (y & <- & I). apply bare_directive. auto. Qed.
  Lemma bare_sel s : strip_sel s = s -> strip_sel (sort_sel usort s) = sort_sel usort s.
  Proof.
    induction s as [a n args dirs sels X|n dirs|on dirs sels X] using sel_ind'; intros E.
    - cbn in E. injection E as <- E1 E2 E3. cbn. rewrite bare_args, bare_directives by assumption. f_equal. rewrite map_fix in E3. rewrite Forall_forall in X.
      apply usort_fix. intros x I. apply in_map_iff in I as (y & <- & I). auto.
    - exact E.
    - cbn in E. injection E as E2 E3. cbn. rewrite bare_directives by assumption. f_equal. rewrite map_fix in E3. rewrite Forall_forall in X.
      apply usort_fix. intros x I. apply in_map_iff in I as (y & <- & I). auto.
  Qed.
  Lemma bare_sels l : map strip_sel l = l -> map strip_sel (sort_sels usort l) = sort_sels usort l.
  Proof. intros E. rewrite map_fix in E. apply usort_fix. intros x I. apply in_map_iff in I as (y & <- & I). apply bare_sel. auto. Qed.
  Lemma bare_doc d : strip d = d -> strip (sort_doc usort d) = sort_doc usort d.
  Proof.
    intros E. pose proof (proj1 (map_fix strip_def d) E) as E'. clear E. rename E' into E. apply usort_fix. intros x I. apply in_map_iff in I as (y & <- & I). specialize (E y I). clear I.
    destruct y as [s|k n vs ds s|n on ds s]; cbn in E; injection E; intros; cbn; f_equal; try (apply bare_sels; assumption); try (apply bare_directives; assumption);
      apply usort_fix; apply map_fix; assumption.
  Qed.
  Lemma normalize_bare d : strip (normalize usort d) = normalize usort d.
  Proof. apply bare_doc. apply strip_twice. Qed.
  Lemma normalize_twice d : normalize usort (normalize usort d) = normalize usort d.
  Proof. unfold normalize at 1. rewrite normalize_bare. apply sort_doc_twice. Qed.
  Lemma normalize_alike d d' : alike d d' -> normalize usort d = normalize usort d'.
  Proof. intros A. unfold normalize. rewrite (alike_strip d d' A). reflexivity. Qed.

  (** What is sorted is a rearrangement *)
  Lemma sort_moved_directives l : moved_directives l (sort_directives usort l).
  Proof.
    exists (map (sort_directive usort) l). split; [|symmetry; apply (s_perm usort H)]. induction l as [|d l IH]; cbn; constructor; [|exact IH].
    split; [reflexivity | symmetry; apply (s_perm usort H)].
  Qed.
  Lemma sort_moved_sels_ l : Forall (fun s => moved_sel s (sort_sel usort s)) l -> moved_sels l (usort _ compare_selections (map (sort_sel usort) l)).
  Proof.
    intros F. apply (mvs_perm _ (map (sort_sel usort) l)); [|symmetry; apply (s_perm usort H)]. induction F; cbn; constructor; assumption.
  Qed.
  Lemma sort_moved_sel s : moved_sel s (sort_sel usort s).
  Proof.
    induction s as [a n args dirs sels X|n dirs|on dirs sels X] using sel_ind'; cbn; constructor; auto using sort_moved_directives, sort_moved_sels_. symmetry. apply (s_perm usort H).
  Qed.
  Lemma sort_moved_sels l : moved_sels l (sort_sels usort l).
  Proof. apply sort_moved_sels_. apply Forall_forall. intros s _. apply sort_moved_sel. Qed.
  Lemma sort_moved d : moved d (sort_doc usort d).
  Proof.
    exists (map (sort_def usort) d). split; [|symmetry; apply (s_perm usort H)]. induction d as [|x d IH]; cbn; constructor; [|exact IH].
    destruct x; cbn; constructor; auto using sort_moved_directives, sort_moved_sels; symmetry; apply (s_perm usort H).
  Qed.
  Lemma normalize_moved d : exists m, alike d m /\ moved m (normalize usort d).
  Proof. exists (strip d). split; [apply strip_alike; symmetry; apply strip_twice | apply sort_moved]. Qed.

  (** Rearrangements of what has no ties are sorted to the same *)
  Lemma sort_args_eq l l' : NoDup (map fst l) -> Permutation l l' -> sort_args usort l = sort_args usort l'.
  Proof. apply (usort_eq compare_args fst); [exact args_preorder|]. intros x y. apply string_eq. Qed.
  Lemma sort_directives_eq l l' : clear_directives l -> moved_directives l l' -> sort_directives usort l = sort_directives usort l'.
  Proof.
    intros (N & C) (m & F & P). apply (usort_eq compare_directives d_name); [exact dirs_preorder | intros x y; apply string_eq | rewrite map_map; exact N|].
    rewrite <- P. clear P N l'. induction F as [|d d' l m (D & A) F IH]; [constructor|]. inversion C; subst. cbn. unfold sort_directive at 1 3. rewrite D, (sort_args_eq _ _ H2 A). constructor. auto.
  Qed.
  Lemma sort_tags l : map tag_of (map (sort_sel usort) l) = map tag_of l.
  Proof. rewrite map_map. apply map_ext. intros []; reflexivity. Qed.
  Lemma usort_sels_eq l l' : NoDup (map tag_of l) -> Permutation (map (sort_sel usort) l) (map (sort_sel usort) l') ->
    usort _ compare_selections (map (sort_sel usort) l) = usort _ compare_selections (map (sort_sel usort) l').
  Proof.
    intros T P. apply (usort_eq compare_selections tag_of); [exact sels_preorder | | rewrite sort_tags; exact T | exact P]. intros x y. rewrite sels_tag. apply tag_eq.
  Qed.
  Lemma sort_eq_sels : (forall s s', moved_sel s s' -> clear_sel s -> sort_sel usort s = sort_sel usort s') /\
    (forall l l', moved_sels l l' -> Forall clear_sel l -> Permutation (map (sort_sel usort) l) (map (sort_sel usort) l')).
  Proof.
    apply moved_sels_ind; cbn.
    - intros a n args args' dirs dirs' sels sels' PA MD _ IH (A & D & T & C). rewrite all_clear in C.
      rewrite (sort_args_eq _ _ A PA), (sort_directives_eq _ _ D MD), (usort_sels_eq _ _ T (IH C)). reflexivity.
    - reflexivity.
    - intros on dirs dirs' sels sels' MD _ IH (D & T & C). rewrite all_clear in C. rewrite (sort_directives_eq _ _ D MD), (usort_sels_eq _ _ T (IH C)). reflexivity.
    - constructor.
    - intros s s' l l' _ IS _ IL C. inversion C; subst. rewrite IS by assumption. constructor. auto.
    - intros l m m' _ IL P C. rewrite (IL C). apply Permutation_map. exact P.
  Qed.
  Lemma sort_sels_eq l l' : clear_sels l -> moved_sels l l' -> sort_sels usort l = sort_sels usort l'.
  Proof. intros (T & C) M. apply usort_sels_eq; [exact T | apply sort_eq_sels; assumption]. Qed.
  Lemma sort_def_eq x y : clear_def x -> moved_def x y -> sort_def usort x = sort_def usort y.
  Proof.
    intros C M. destruct M; cbn in C |- *.
    - f_equal. apply sort_sels_eq; assumption.
    - destruct C as (V & D & S). f_equal; [|apply sort_directives_eq; assumption | apply sort_sels_eq; assumption].
      apply (usort_eq compare_vars v_name); [exact vars_preorder | intros a b; apply string_eq | exact V | assumption].
    - destruct C as (D & S). f_equal; [|apply sort_sels_eq; assumption].
      apply (usort_eq compare_directives d_name); [exact dirs_preorder | intros a b; apply string_eq | exact D | assumption].
  Qed.
  Lemma sort_doc_eq d d' : clear d -> moved d d' -> sort_doc usort d = sort_doc usort d'.
  Proof.
    intros (T & C) (m & F & P). apply (usort_eq compare_definitions def_tag); [exact defs_preorder | intros x y; rewrite defs_tag; apply def_eq | |].
    - rewrite map_map. erewrite map_ext; [exact T|]. intros []; reflexivity.
    - transitivity (map (sort_def usort) m); [|apply Permutation_map; exact P]. clear P T. induction F as [|x y d m M F IH]; [constructor|]. inversion C; subst.
      cbn. rewrite (sort_def_eq x y) by assumption. constructor. auto.
  Qed.
  Lemma normalize_eq d m d' : clear d -> moved d m -> alike m d' -> normalize usort d = normalize usort d'.
  Proof.
    intros C M A. rewrite <- (normalize_alike m d' A). apply sort_doc_eq; [apply strip_clear; exact C | apply strip_moved; exact M].
  Qed.
  (** Ties are left as they are *)
  Lemma sorted_pair {A} cmp (x y : A) : preorder cmp -> cmp x y <> Gt -> usort A cmp [x; y] = [x; y].
  Proof. intros C B. apply (s_keep usort H); [exact C|]. repeat constructor. exact B. Qed.
  Lemma usort_one {A} cmp (x : A) : preorder cmp -> usort A cmp [x] = [x].
  Proof. intros C. apply (s_keep usort H); [exact C|]. repeat constructor. Qed.
  Lemma usort_nil {A} cmp : usort A cmp [] = [].
  Proof. apply Permutation_nil. symmetry. apply (s_perm usort H). Qed.
End Sort.

(** A sort *)
Fixpoint insert {A} (cmp : A -> A -> comparison) (x : A) (l : list A) : list A :=
  match l with [] => [x] | y :: l' => match cmp x y with Gt => y :: insert cmp x l' | _ => x :: l end end.
Definition isort (A : Type) (cmp : A -> A -> comparison) (l : list A) : list A := fold_right (insert cmp) [] l.
Lemma insert_perm {A} cmp (x : A) l : Permutation (insert cmp x l) (x :: l).
Proof. induction l as [|y l IH]; cbn; [reflexivity|]. destruct (cmp x y); try reflexivity. rewrite IH. constructor. Qed.
Lemma insert_sorted {A} cmp (x : A) l : preorder cmp -> StronglySorted (below cmp) l -> StronglySorted (below cmp) (insert cmp x l).
Proof.
  intros (S & T). induction 1 as [|y l L IH Y]; cbn; [repeat constructor|].
  assert (LO : cmp x y <> Gt -> StronglySorted (below cmp) (x :: y :: l)).
  { intros B. constructor; [constructor; assumption|]. constructor; [exact B|]. refine (Forall_impl _ _ Y). intros z. apply T. exact B. }
  destruct (cmp x y) eqn:E; try (apply LO; congruence).
  constructor; [exact IH|]. apply Forall_forall. intros z I. apply (Permutation_in z (insert_perm cmp x l)) in I. destruct I as [<-|I].
  - unfold below. rewrite S, E. cbn. congruence.
  - rewrite Forall_forall in Y. auto.
Qed.
Lemma isort_sorts : sorts isort.
Proof.
  split.
  - intros A cmp l. induction l as [|x l IH]; cbn; [constructor|]. rewrite insert_perm. constructor. exact IH.
  - intros A cmp l C. induction l as [|x l IH]; cbn; [constructor|]. apply insert_sorted; assumption.
  - intros A cmp l C. induction 1 as [|x l L IH X]; [reflexivity|]. change (insert cmp x (isort A cmp l) = x :: l). rewrite IH. destruct l as [|y l]; [reflexivity|]. cbn. inversion X; subst. unfold below in *. destruct (cmp x y); congruence.
Qed.

(** Ties *)
Section Ties.
  Variable usort : forall A : Type, (A -> A -> comparison) -> list A -> list A.
  Hypothesis H : sorts usort.
  Definition lone (s : list selection) : document := [Short s].
  Ltac run := unfold normalize, sort_doc, lone; cbn [strip map strip_def strip_sel strip_args strip_directive strip_value sort_def d_name d_args fst snd]; unfold sort_sels; cbn [map sort_sel]; unfold sort_directives, sort_directive, sort_args; cbn [map d_name d_args];
    rewrite ?(usort_nil usort H), ?(usort_one usort H) by (first [exact defs_preorder | exact sels_preorder | exact dirs_preorder | exact args_preorder]).
  Lemma tie_inline : normalize usort (lone [Inline (Some "A") [] []; Inline (Some "B") [] []]) <> normalize usort (lone [Inline (Some "B") [] []; Inline (Some "A") [] []]).
  Proof. run. rewrite !(sorted_pair usort H) by (first [exact sels_preorder | cbn; congruence]). discriminate. Qed.
  Lemma tie_field : normalize usort (lone [Field (Some "a") "f" [("x", VNull)] [] []; Field (Some "b") "f" [("y", VNull)] [] []]) <>
    normalize usort (lone [Field (Some "b") "f" [("y", VNull)] [] []; Field (Some "a") "f" [("x", VNull)] [] []]).
  Proof. run. rewrite !(sorted_pair usort H) by (first [exact sels_preorder | cbn; congruence]). discriminate. Qed.
  Lemma tie_spread : normalize usort (lone [Spread "F" [mkdirective "c" []; mkdirective "d" []]]) <> normalize usort (lone [Spread "F" [mkdirective "d" []; mkdirective "c" []]]).
  Proof. run. discriminate. Qed.
  Lemma tie_object : normalize usort (lone [Field None "f" [("x", VObject [("a", VNull); ("b", VNull)])] [] []]) <>
    normalize usort (lone [Field None "f" [("x", VObject [("b", VNull); ("a", VNull)])] [] []]).
  Proof. run. discriminate. Qed.
  Lemma tie_fragment : normalize usort [Fragment "F" "T" [mkdirective "d" [("x", VNull); ("y", VNull)]] []] <>
    normalize usort [Fragment "F" "T" [mkdirective "d" [("y", VNull); ("x", VNull)]] []].
  Proof. run. discriminate. Qed.
End Ties.
Lemma moved_same_sel s : moved_sel s s.
Proof.
  assert (D : forall l, moved_directives l l) by (intros l; exists l; split; [induction l; constructor; [split; reflexivity | assumption] | reflexivity]).
  induction s as [a n args dirs sels X|n dirs|on dirs sels X] using sel_ind'; constructor; auto; induction X; constructor; assumption.
Qed.
Lemma moved_two a b : moved [Short [a; b]] [Short [b; a]].
Proof.
  exists [Short [b; a]]. split; [|reflexivity]. constructor; [|constructor]. constructor. apply (mvs_perm _ [a; b]); [|apply perm_swap].
  constructor; [apply moved_same_sel|]. constructor; [apply moved_same_sel | constructor].
Qed.
Lemma moved_inline : moved [Short [Inline (Some "A") [] []; Inline (Some "B") [] []]] [Short [Inline (Some "B") [] []; Inline (Some "A") [] []]].
Proof. apply moved_two. Qed.
