From Coq Require Import String List NArith ZArith Bool Lia PeanoNat.
From Verif Require Import Ast OverlapModel OverlapSpec.
Import ListNotations.
Local Open Scope string_scope.
Local Open Scope list_scope.

Section Find.
  Variables (k : string) (v : gvalue).
  Fixpoint find_rest (before rest : list (string * gvalue)) : option (list (string * gvalue)) :=
    match rest with
    | [] => None
    | (k', w) :: rest' => if String.eqb k k' && compare v w then Some (before ++ rest') else find_rest (before ++ [(k', w)]) rest'
    end.
  Lemma find_some : forall rest before r, find_rest before rest = Some r ->
    exists b w a, rest = b ++ (k, w) :: a /\ compare v w = true /\ r = before ++ b ++ a.
  Proof.
    induction rest as [|[k' w] rest IH]; intros before r; cbn; [discriminate|].
    destruct (String.eqb_spec k k') as [<-|E]; cbn.
    - destruct (compare v w) eqn:C.
      + intros H. injection H as <-. exists [], w, rest. repeat split; assumption.
      + intros H. apply IH in H. destruct H as (b & w' & a & -> & C' & ->).
        exists ((k, w) :: b), w', a. rewrite <- app_assoc. repeat split; assumption.
    - intros H. apply IH in H. destruct H as (b & w' & a & -> & C' & ->).
      exists ((k', w) :: b), w', a. rewrite <- app_assoc. repeat split; assumption.
  Qed.
  Lemma find_exists : forall rest before w, In (k, w) rest -> compare v w = true -> find_rest before rest <> None.
  Proof.
    induction rest as [|[k' w'] rest IH]; intros before w; cbn; [intros []|].
    intros [H|H] C.
    - injection H as -> ->. rewrite String.eqb_refl, C. discriminate.
    - destruct (String.eqb k k' && compare v w'); [discriminate|]. now apply (IH _ w).
  Qed.
End Find.
Fixpoint match_all (x rest : list (string * gvalue)) : bool :=
  match x with
  | [] => true
  | (k, v) :: x' => match find_rest k v [] rest with Some rest' => match_all x' rest' | None => false end
  end.
Fixpoint zip_all (x y : list gvalue) : bool :=
  match x, y with u :: x', v :: y' => compare u v && zip_all x' y' | _, _ => true end.
Lemma compare_obj : forall x y, compare (GObj x) (GObj y) = if Nat.eqb (List.length x) (List.length y) then match_all x y else false.
Proof. reflexivity. Qed.
Lemma compare_list : forall x y, compare (GList x) (GList y) = zip_all x y.
Proof. reflexivity. Qed.

Lemma zero_ok : forall b, is_zero b = true <-> In b [0; 9223372036854775808]%N.
Proof.
  intros b. unfold is_zero. rewrite orb_true_iff, !N.eqb_eq. cbn. intuition congruence.
Qed.
Lemma float_ok : forall a b, float_eq a b = true <-> a = b \/ (In a [0; 9223372036854775808]%N /\ In b [0; 9223372036854775808]%N).
Proof. intros a b. unfold float_eq. now rewrite orb_true_iff, andb_true_iff, N.eqb_eq, !zero_ok. Qed.

Lemma match_all_yes : forall x rest,
  NoDup (map fst x) -> NoDup (map fst rest) ->
  (forall k v, In (k, v) x -> exists w, In (k, w) rest /\ compare v w = true) -> match_all x rest = true.
Proof.
  induction x as [|[k v] x IH]; intros rest U V H; [reflexivity|]. cbn.
  cbn in U. inversion U as [|? ? U1 U2]; subst.
  destruct (H k v (or_introl eq_refl)) as (w & I & C).
  destruct (find_rest k v [] rest) as [r|] eqn:F; [|exfalso; exact (find_exists _ _ _ _ _ I C F)].
  apply find_some in F. destruct F as (b & w' & a & -> & C' & ->). cbn [app].
  rewrite map_app in V. cbn [map] in V. apply IH; [exact U2|rewrite map_app; now apply NoDup_remove_1 in V|].
  intros k' v' I'. destruct (H k' v' (or_intror I')) as (w2 & J & C2). exists w2. split; [|exact C2].
  apply in_app_iff in J. apply in_app_iff. destruct J as [J|[J|J]]; [now left| |now right].
  exfalso. apply U1. injection J as -> _. now apply (in_map fst) in I'.
Qed.
Lemma match_all_no : forall x rest, List.length x = List.length rest -> match_all x rest = true ->
  (forall k v, In (k, v) x -> exists w, In (k, w) rest /\ compare v w = true)
  /\ (forall k w, In (k, w) rest -> exists v, In (k, v) x /\ compare v w = true).
Proof.
  induction x as [|[k v] x IH]; intros rest L; cbn.
  - destruct rest; [|discriminate]. split; intros ? ? [].
  - destruct (find_rest k v [] rest) as [r|] eqn:F; [|discriminate].
    apply find_some in F. destruct F as (b & w & a & -> & C & ->). cbn [app]. intros M.
    assert (L' : List.length x = List.length (b ++ a)).
    { rewrite app_length in *. cbn in L. lia. }
    destruct (IH _ L' M) as [A B]. split.
    + intros k' v' [E|I].
      * injection E as <- <-. exists w. split; [apply in_app_iff; right; now left|exact C].
      * destruct (A k' v' I) as (w' & J & C'). exists w'. split; [|exact C'].
        apply in_app_iff in J. apply in_app_iff. destruct J as [J|J]; [now left|right; now right].
    + intros k' w' J. apply in_app_iff in J. destruct J as [J|[J|J]].
      * destruct (B k' w') as (v' & I & C'); [apply in_app_iff; now left|]. exists v'. split; [now right|exact C'].
      * injection J as <- <-. exists v. split; [now left|exact C].
      * destruct (B k' w') as (v' & I & C'); [apply in_app_iff; now right|]. exists v'. split; [now right|exact C'].
Qed.

Lemma same_length : forall x y : list (string * gvalue), NoDup (map fst x) -> NoDup (map fst y) ->
  (forall k (v : gvalue), In (k, v) x -> exists w, In (k, w) y /\ same v w) ->
  (forall k (w : gvalue), In (k, w) y -> exists v, In (k, v) x /\ same v w) ->
  List.length x = List.length y.
Proof.
  intros x y U V A B. rewrite <- (map_length fst x), <- (map_length fst y). apply PeanoNat.Nat.le_antisymm.
  - apply NoDup_incl_length; [exact U|]. intros k I. apply in_map_iff in I. destruct I as ([k' v] & <- & I).
    destruct (A _ _ I) as (w & J & _). now apply (in_map fst) in J.
  - apply NoDup_incl_length; [exact V|]. intros k I. apply in_map_iff in I. destruct I as ([k' v] & <- & I).
    destruct (B _ _ I) as (w & J & _). now apply (in_map fst) in J.
Qed.

Lemma compare_same : forall a b, tidy a -> tidy b -> same a b -> compare a b = true.
Proof.
  induction a as [nm|z|f|s|t| |s|l IH|o IH] using gvalue_ind'; intros b Ta Tb H; inversion H; subst; cbn [compare].
  - apply String.eqb_refl.
  - apply Z.eqb_refl.
  - now apply float_ok.
  - apply String.eqb_refl.
  - apply Bool.eqb_reflx.
  - reflexivity.
  - apply String.eqb_refl.
  - change (zip_all l y = true). inversion Ta as [? A| |? A]; [|now specialize (A l)]. inversion Tb as [? B| |? B]; [|now specialize (B y)].
    subst. clear H Ta Tb. match goal with K : Forall2 same l y |- _ => induction K as [|u v l y Huv K IHK] end; [reflexivity|].
    cbn. inversion A; inversion B; inversion IH; subst. apply andb_true_iff. split; [auto|]. now apply IHK.
  - match goal with K : forall k v, In (k, v) o -> _ |- _ => rename K into K1 end.
    match goal with K : forall k w, In (k, w) y -> _ |- _ => rename K into K2 end.
    change (compare (GObj o) (GObj y) = true). rewrite compare_obj.
    inversion Ta as [|? U A|? _ A]; [|now specialize (A o)]. inversion Tb as [|? V B|? _ B]; [|now specialize (B y)]. subst.
    rewrite (same_length o y U V K1 K2), PeanoNat.Nat.eqb_refl.
    apply match_all_yes; [exact U|exact V|]. intros k v I. destruct (K1 k v I) as (w & J & S). exists w. split; [exact J|].
    rewrite Forall_forall in A, B, IH. exact (IH _ I w (A _ I) (B _ J) S).
Qed.
Lemma same_compare : forall a b, listless a -> compare a b = true -> same a b.
Proof.
  induction a as [nm|z|f|s|t| |s|l IH|o IH] using gvalue_ind'; intros b La; destruct b as [nm'|z'|f'|s'|t'| |s'|l'|o']; try discriminate; cbn [compare]; intros H.
  - apply String.eqb_eq in H. subst. constructor.
  - apply Z.eqb_eq in H. subst. constructor.
  - constructor. now apply float_ok.
  - apply String.eqb_eq in H. subst. constructor.
  - apply Bool.eqb_prop in H. subst. constructor.
  - constructor.
  - apply String.eqb_eq in H. subst. constructor.
  - exfalso. inversion La as [|? A]. now specialize (A l).
  - change (compare (GObj o) (GObj o') = true) in H. rewrite compare_obj in H.
    destruct (PeanoNat.Nat.eqb_spec (List.length o) (List.length o')) as [L|]; [|discriminate].
    apply match_all_no in H; [|exact L]. destruct H as [A B].
    inversion La as [? C|? _ C]; [|now specialize (C o)]. subst. rewrite Forall_forall in IH, C.
    constructor.
    + intros k v I. destruct (A k v I) as (w & J & S). exists w. split; [exact J|]. exact (IH _ I w (C _ I) S).
    + intros k w J. destruct (B k w J) as (v & I & S). exists v. split; [exact I|]. exact (IH _ I w (C _ I) S).
Qed.
Lemma same_refl : forall a, same a a.
Proof.
  induction a as [nm|z|f|s|t| |s|l IH|o IH] using gvalue_ind'; try constructor; auto.
  - induction IH; constructor; auto.
  - intros k v I. exists v. split; [exact I|]. rewrite Forall_forall in IH. exact (IH _ I).
  - intros k v I. exists v. split; [exact I|]. rewrite Forall_forall in IH. exact (IH _ I).
Qed.
Lemma same_sym : forall a b, same a b -> same b a.
Proof.
  induction a as [nm|z|f|s|t| |s|l IH|o IH] using gvalue_ind'; intros b H; inversion H; subst; try constructor.
  - match goal with K : _ \/ _ |- _ => destruct K as [->|[K1 K2]]; [now left|now right] end.
  - clear H. match goal with K : Forall2 same l y |- _ => induction K as [|u v l y Huv K IHK] end; constructor; inversion IH; subst; auto.
  - match goal with K : forall k w, In (k, w) y -> _ |- _ => rename K into K2 end.
    intros k v I. destruct (K2 k v I) as (w & J & S). exists w. split; [exact J|]. rewrite Forall_forall in IH. exact (IH _ J _ S).
  - match goal with K : forall k v, In (k, v) o -> _ |- _ => rename K into K1 end.
    intros k v I. destruct (K1 k v I) as (w & J & S). exists w. split; [exact J|]. rewrite Forall_forall in IH. exact (IH _ I _ S).
Qed.

(** Arguments *)
Lemma arg_get_in : forall n l v, NoDup (map fst l) -> (arg_get n l = Some v <-> In (n, v) l).
Proof.
  intros n. induction l as [|[k w] l IH]; intros v U; cbn; [split; [discriminate|intros []]|].
  inversion U as [|? ? U1 U2]; subst. destruct (String.eqb_spec n k) as [->|E].
  - split; [intros H; injection H as ->; now left|]. intros [H|H]; [congruence|].
    exfalso. apply U1. now apply (in_map fst) in H.
  - rewrite (IH v U2). split; [now right|]. intros [H|H]; [congruence|exact H].
Qed.
Lemma args_same : forall x y, tidy (GObj x) -> tidy (GObj y) -> same_args x y -> same_arguments x y = true.
Proof.
  intros x y Tx Ty H. inversion H as [| | | | | | | |? ? A B]; subst.
  inversion Tx as [|? U TA|? _ TA]; [|now specialize (TA x)]. inversion Ty as [|? V TB|? _ TB]; [|now specialize (TB y)]. subst.
  unfold same_arguments. rewrite (same_length x y U V A B), PeanoNat.Nat.eqb_refl. cbn [andb].
  apply forallb_forall. intros [k v] I. cbn [fst snd]. destruct (A k v I) as (w & J & S).
  rewrite (proj2 (arg_get_in k y w V) J). rewrite Forall_forall in TA, TB. exact (compare_same v w (TA _ I) (TB _ J) S).
Qed.
Lemma same_args_ok : forall x y, tidy (GObj x) -> tidy (GObj y) -> listless (GObj x) -> same_arguments x y = true -> same_args x y.
Proof.
  intros x y Tx Ty Lx H. unfold same_arguments in H. apply andb_true_iff in H. destruct H as [L H].
  apply PeanoNat.Nat.eqb_eq in L. rewrite forallb_forall in H.
  inversion Tx as [|? U TA|? _ TA]; [|now specialize (TA x)]. inversion Ty as [|? V TB|? _ TB]; [|now specialize (TB y)]. subst.
  inversion Lx as [? C|? _ C]; [|now specialize (C x)]. subst. rewrite Forall_forall in C.
  assert (A : forall k v, In (k, v) x -> exists w, In (k, w) y /\ same v w).
  { intros k v I. specialize (H _ I). cbn [fst snd] in H. destruct (arg_get k y) as [w|] eqn:G; [|discriminate].
    exists w. split; [now apply arg_get_in|]. exact (same_compare v w (C _ I) H). }
  constructor; [exact A|]. intros k w J.
  assert (K : incl (map fst y) (map fst x)).
  { apply NoDup_length_incl; [exact U|rewrite !map_length; lia|]. intros n I. apply in_map_iff in I. destruct I as ([n' v] & <- & I).
    destruct (A _ _ I) as (u & J' & _). now apply (in_map fst) in J'. }
  specialize (K k (in_map fst _ _ J)). apply in_map_iff in K. destruct K as ([k' v] & E & I). cbn in E. subst k'.
  exists v. split; [exact I|]. destruct (A k v I) as (w' & J' & S).
  enough (w = w') by now subst. apply (arg_get_in k y) in J; [|exact V]. apply (arg_get_in k y) in J'; [|exact V]. congruence.
Qed.
