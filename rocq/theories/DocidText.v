(* Lemmas on the texts of DocidModel: query strings, percent encoding, paths. *)
From Coq Require Import String Ascii List Bool NArith Lia.
From Verif Require Import StrUtil Utf8 DocidModel DocidSpec.
Import ListNotations.
Local Open Scope string_scope.
Local Open Scope list_scope.

Lemma strip_iff : forall p s r, strip p s = Some r <-> s = (p ++ r)%string.
Proof.
  induction p as [|a p IH]; intros s r; cbn [strip append].
  - split; [intros [= ->]|intros ->]; reflexivity.
  - destruct s as [|b s]; [split; discriminate|].
    destruct (Ascii.eqb_spec a b) as [->|N].
    + rewrite IH. split; [intros ->|intros [= ->]]; reflexivity.
    + split; [discriminate|intros [= E _]; congruence].
Qed.

Lemma lacks_app : forall c a b, lacks c (a ++ b)%string <-> lacks c a /\ lacks c b.
Proof. induction a as [|d a IH]; intros b; cbn; [tauto|]. rewrite IH. tauto. Qed.

Lemma before_app : forall c v t, lacks c v -> before c (v ++ String c t)%string = v.
Proof.
  induction v as [|d v IH]; intros t L; cbn.
  - now rewrite Ascii.eqb_refl.
  - destruct L as [N L]. destruct (Ascii.eqb_spec d c); [contradiction|]. now rewrite IH.
Qed.

Lemma before_all : forall c v, lacks c v -> before c v = v.
Proof.
  induction v as [|d v IH]; intros L; cbn; [reflexivity|].
  destruct L as [N L]. destruct (Ascii.eqb_spec d c); [contradiction|]. now rewrite IH.
Qed.

Section Scan.
Variables (n0 : ascii) (nr : string).
Let name := String n0 nr.
Hypothesis NA : lacks amp name.
Hypothesis NE : lacks eqs name.

Lemma n0_amp : n0 <> amp.
Proof. exact (proj1 NA). Qed.

Lemma scan_over : forall p t, lacks amp p -> scan n0 name false (p ++ String amp t)%string = scan n0 name true t.
Proof.
  induction p as [|c p IH]; intros t L.
  - cbn [append scan]. rewrite andb_false_r, Ascii.eqb_refl. reflexivity.
  - destruct L as [N L]. cbn [append scan]. rewrite andb_false_r.
    destruct (Ascii.eqb_spec c amp); [contradiction|]. now apply IH.
Qed.

Lemma scan_last : forall p, lacks amp p -> scan n0 name false p = None.
Proof.
  induction p as [|c p IH]; intros L; [reflexivity|].
  destruct L as [N L]. cbn [scan]. rewrite andb_false_r.
  destruct (Ascii.eqb_spec c amp); [contradiction|]. now apply IH.
Qed.

(* what follows the first pair *)
Definition tailed (t : string) (rest : option string) : Prop :=
  match rest with
  | None => t = ""
  | Some u => t = String amp u
  end.
Definition onward (rest : option string) : option string :=
  match rest with None => None | Some u => scan n0 name true u end.

Lemma scan_past : forall p t rest, lacks amp p -> tailed t rest ->
  scan n0 name false (p ++ t)%string = onward rest.
Proof.
  intros p t [u|] L T; cbn in T; subst t; cbn [onward].
  - now apply scan_over.
  - rewrite string_app_nil_r. now apply scan_last.
Qed.

Lemma app_prefix : forall p t a r rest, lacks amp p -> lacks amp a -> tailed t rest ->
  (p ++ t = a ++ r)%string -> exists q, p = (a ++ q)%string /\ r = (q ++ t)%string.
Proof.
  induction p as [|c p IH]; intros t a r rest LP LA T E.
  - destruct a as [|d a]; [exists ""; auto|]. exfalso.
    cbn in E. destruct rest as [u|]; cbn in T; subst t; [|discriminate].
    injection E as E _. destruct LA as [N _]. congruence.
  - destruct a as [|d a]; [exists (String c p); auto|].
    cbn in E. injection E as <- E. destruct LP as [_ LP], LA as [_ LA].
    destruct (IH _ _ _ _ LP LA T E) as (q & -> & ->). exists q. auto.
Qed.

Lemma app_inj_l : forall a b c, (a ++ b = a ++ c)%string -> b = c.
Proof. induction a as [|d a IH]; intros b c E; [exact E|]. injection E. apply IH. Qed.

Lemma scan_pair : forall p t rest, lacks amp p -> tailed t rest ->
  (p = name /\ scan n0 name true (p ++ t)%string = None) \/
  (p = (name ++ "=")%string /\ scan n0 name true (p ++ t)%string = None) \/
  (exists v, v <> "" /\ p = (name ++ "=" ++ v)%string /\ scan n0 name true (p ++ t)%string = Some v) \/
  (p <> name /\ (forall v, p <> (name ++ "=" ++ v)%string) /\ scan n0 name true (p ++ t)%string = onward rest).
Proof.
  intros p t rest LP T.
  destruct p as [|c p].
  - right. right. right. split; [discriminate|]. split; [intros v; discriminate|].
    cbn [append]. destruct rest as [u|]; cbn in T; subst t; [|reflexivity].
    cbn [scan]. destruct (Ascii.eqb_spec amp n0) as [E|_]; [exfalso; apply n0_amp; now symmetry|].
    cbn [andb onward]. rewrite Ascii.eqb_refl. reflexivity.
  - assert (NX : scan n0 name (Ascii.eqb c amp) (p ++ t) = onward rest).
    { destruct LP as [N LP]. destruct (Ascii.eqb_spec c amp); [contradiction|]. now apply scan_past. }
    destruct (Ascii.eqb_spec c n0) as [->|N0].
    2:{ right. right. right.
        split; [unfold name; intros [= E _]; contradiction|].
        split; [intros v; unfold name; cbn; intros [= E _]; contradiction|].
        cbn [append scan]. apply Ascii.eqb_neq in N0. rewrite N0. cbn [andb]. exact NX. }
    change (String n0 p ++ t)%string with (String n0 (p ++ t)).
    cbn [scan]. rewrite Ascii.eqb_refl. cbn [andb].
    destruct (strip name (String n0 (p ++ t))) as [r|] eqn:ES.
    + apply strip_iff in ES. change (String n0 (p ++ t)) with (String n0 p ++ t)%string in ES.
      destruct (app_prefix _ _ _ _ _ LP NA T ES) as (q & EP & ER). rewrite EP in *.
      destruct q as [|sep v].
      * left. rewrite string_app_nil_r. split; [reflexivity|]. cbn in ER. subst r.
        destruct rest as [u|]; cbn in T; subst t; [|reflexivity]. now rewrite Ascii.eqb_refl.
      * cbn in ER. subst r. apply lacks_app in LP. destruct LP as [_ [NS LV]].
        destruct (Ascii.eqb_spec sep amp); [contradiction|].
        destruct (Ascii.eqb_spec sep eqs) as [->|NQ]; cbn [negb].
        -- destruct v as [|d v].
           ++ right. left. split; [reflexivity|]. cbn [append].
              destruct rest as [u|]; cbn in T; subst t; [|reflexivity]. now rewrite Ascii.eqb_refl.
           ++ right. right. left. exists (String d v). split; [discriminate|]. split; [reflexivity|].
              cbn [append]. destruct LV as [ND LV]. pose proof ND as ND'. apply Ascii.eqb_neq in ND'. rewrite ND'.
              change (String d (v ++ t)) with (String d v ++ t)%string.
              destruct rest as [u|]; cbn in T; subst t.
              ** rewrite before_app; [reflexivity|split; assumption].
              ** rewrite string_app_nil_r, before_all; [reflexivity|split; assumption].
        -- right. right. right.
           split; [intros E; rewrite <- (string_app_nil_r name) in E at 2; apply app_inj_l in E; discriminate|].
           split; [intros w E; apply app_inj_l in E; injection E as E _; contradiction|]. exact NX.
    + right. right. right.
      split; [intros E; rewrite <- E in ES|split; [intros w E|exact NX]].
      * change (String n0 (p ++ t)) with (String n0 p ++ t)%string in ES.
        rewrite (proj2 (strip_iff (String n0 p) _ t) eq_refl) in ES. discriminate.
      * change (String n0 (p ++ t)) with (String n0 p ++ t)%string in ES. rewrite E in ES.
        rewrite string_app_assoc in ES. rewrite (proj2 (strip_iff name _ _) eq_refl) in ES. discriminate.
Qed.

Lemma scan_first : forall ps p, Forall (lacks amp) (p :: ps) ->
  first_value name (p :: ps) (scan n0 name true (String.concat "&" (p :: ps))).
Proof.
  induction ps as [|p' ps IH]; intros p F; inversion F as [|? ? LP LS]; subst.
  - change (String.concat "&" [p]) with p.
    pose proof (scan_pair p "" None LP eq_refl) as H. rewrite string_app_nil_r in H.
    destruct H as [[-> ->]|[[-> ->]|[(v & NV & -> & ->)|(N1 & N2 & ->)]]].
    + apply fv_bare.
    + apply fv_empty.
    + now apply fv_value.
    + apply fv_other; [exact N1|exact N2|apply fv_none].
  - change (String.concat "&" (p :: p' :: ps)) with (p ++ String amp (String.concat "&" (p' :: ps)))%string.
    destruct (scan_pair p _ (Some (String.concat "&" (p' :: ps))) LP eq_refl)
      as [[-> E]|[[-> E]|[(v & NV & -> & E)|(N1 & N2 & E)]]]; rewrite E.
    + apply fv_bare.
    + apply fv_empty.
    + now apply fv_value.
    + apply fv_other; [exact N1|exact N2|]. now apply IH.
Qed.
End Scan.

Lemma app_self : forall a b, (a ++ b = a)%string -> b = "".
Proof. induction a as [|c a IH]; intros b E; [exact E|]. injection E. apply IH. Qed.

Lemma first_value_one : forall name ps r1 r2, first_value name ps r1 -> first_value name ps r2 -> r1 = r2.
Proof.
  intros name ps r1 r2 H1. revert r2. induction H1 as [|ps|ps|v ps NV|p ps r N1 N2 H IH]; intros r2 H2.
  - inversion H2; reflexivity.
  - inversion H2 as [| ? A | ? A | ? ? ? A | ? ? ? M1 M2 _ A]; subst; try reflexivity; exfalso.
    + first [apply app_self in A | symmetry in A; apply app_self in A]; discriminate A.
    + now apply M1.
  - inversion H2 as [| ? A | ? A | ? ? NV A | ? ? ? M1 M2 _ A]; subst; try reflexivity; exfalso.
    + apply app_inj_l in A. injection A. exact NV.
    + now apply (M2 "").
  - inversion H2 as [| ? A | ? A | w ? NW A | ? ? ? M1 M2 _ A]; subst.
    + exfalso. first [apply app_self in A | symmetry in A; apply app_self in A]; discriminate A.
    + exfalso. apply app_inj_l in A. injection A. intros E. now apply NV.
    + apply app_inj_l in A. now injection A as ->.
    + exfalso. now apply (M2 v).
  - inversion H2; subst.
    + exfalso. now apply N1.
    + exfalso. now apply (N2 "").
    + exfalso. eapply N2. reflexivity.
    + now apply IH.
Qed.

Lemma query_first : forall name ps, name <> "" -> lacks amp name -> lacks eqs name ->
  ps <> [] -> Forall (lacks amp) ps ->
  forall r, find_first_value (String.concat "&" ps) name = r <-> first_value name ps r.
Proof.
  intros name ps NN LA LE NP F r. destruct name as [|n0 nr]; [contradiction|].
  destruct ps as [|p ps]; [contradiction|]. cbn [find_first_value].
  pose proof (scan_first n0 nr LA ps p F) as H. split.
  - intros <-. exact H.
  - intros H2. exact (first_value_one _ _ _ _ H H2).
Qed.

Lemma every_query : forall q, exists ps, ps <> [] /\ Forall (lacks amp) ps /\ q = String.concat "&" ps.
Proof.
  induction q as [|c q (ps & N & F & E)].
  - exists [""]. split; [discriminate|]. split; [repeat constructor|reflexivity].
  - destruct (Ascii.eqb_spec c amp) as [->|NC].
    + exists ("" :: ps). split; [discriminate|]. split; [constructor; [exact I|exact F]|].
      rewrite E. destruct ps; [contradiction|reflexivity].
    + destruct ps as [|p ps]; [contradiction|]. inversion F as [|? ? LP LS]; subst.
      exists (String c p :: ps). split; [discriminate|]. split; [constructor; [split; assumption|exact LS]|].
      destruct ps; reflexivity.
Qed.

(* percent encoding *)
Lemma hexval_digit : forall c n, hexval c n -> hex_digit c = Some n /\ c <> "%"%char /\ c <> "+"%char.
Proof.
  intros c n (i & [[H ->]|[H ->]]);
    do 16 (destruct i as [|i]; [injection H as <-; vm_compute; repeat split; congruence|]);
    destruct i; discriminate.
Qed.

Lemma written_plus : forall v s, written v s -> percent_decode (replace_plus s) = v.
Proof.
  induction 1 as [|c v s NP NQ H IH|v s H IH|a b x y v s HA HB H IH].
  - reflexivity.
  - cbn [replace_plus]. apply Ascii.eqb_neq in NP. apply Ascii.eqb_neq in NQ. rewrite NQ.
    cbn [percent_decode]. now rewrite NP, IH.
  - cbn [replace_plus]. rewrite Ascii.eqb_refl. cbn [percent_decode].
    change (Ascii.eqb " " "%") with false. cbv iota. now rewrite IH.
  - destruct (hexval_digit _ _ HA) as (DA & _ & PA). destruct (hexval_digit _ _ HB) as (DB & _ & PB).
    apply Ascii.eqb_neq in PA. apply Ascii.eqb_neq in PB.
    cbn [replace_plus]. change (Ascii.eqb "%" "+") with false. rewrite PA, PB. cbv iota.
    cbn [percent_decode]. rewrite Ascii.eqb_refl, DA, DB. now rewrite IH.
Qed.

Lemma no_plus : forall s, has "+"%char s = false -> replace_plus s = s.
Proof.
  induction s as [|c s IH]; intros H; [reflexivity|]. cbn [has] in H. apply orb_false_iff in H.
  destruct H as [H1 H2]. cbn [replace_plus]. now rewrite H1, IH.
Qed.

Lemma no_percent : forall s, has "%"%char s = false -> percent_decode s = s.
Proof.
  induction s as [|c s IH]; intros H; [reflexivity|]. cbn [has] in H. apply orb_false_iff in H.
  destruct H as [H1 H2]. cbn [percent_decode]. now rewrite H1, IH.
Qed.

Lemma decode_written : forall v s, written v s -> utf8_ok s = true ->
  decode_if_needed s = if utf8_ok v then Some v else None.
Proof.
  intros v s W U. pose proof (written_plus _ _ W) as D. unfold decode_if_needed.
  destruct (has "+" s) eqn:HP; destruct (has "%" s) eqn:HC; cbn [negb andb]; unfold checked.
  - now rewrite D.
  - now rewrite D.
  - rewrite no_plus in D by assumption. now rewrite D.
  - rewrite no_plus, no_percent in D by assumption. subst. now rewrite U.
Qed.

(* paths *)
Lemma split_slashed : forall c ps p, lacks c p -> Forall (lacks c) ps ->
  split_on c (p ++ fold_right (fun q t => String c (q ++ t)) "" ps)%string = p :: ps.
Proof.
  intros c. induction ps as [|q ps IH]; intros p LP F.
  - cbn [fold_right]. rewrite string_app_nil_r. clear F. induction p as [|d p IHp]; [reflexivity|].
    destruct LP as [N LP]. cbn [split_on]. destruct (Ascii.eqb_spec c d); [congruence|]. now rewrite IHp.
  - inversion F as [|? ? LQ LS]; subst. cbn [fold_right]. induction p as [|d p IHp].
    + cbn [append split_on]. rewrite Ascii.eqb_refl. now rewrite IH.
    + destruct LP as [N LP]. cbn [append split_on]. destruct (Ascii.eqb_spec c d); [congruence|]. now rewrite IHp.
Qed.

Lemma split_inv : forall c s p ps, split_on c s = p :: ps ->
  s = (p ++ fold_right (fun q t => String c (q ++ t)) "" ps)%string /\ lacks c p /\ Forall (lacks c) ps.
Proof.
  intros c. induction s as [|d s IH]; intros p ps E; cbn [split_on] in E.
  - injection E as <- <-. repeat split; constructor.
  - destruct (Ascii.eqb_spec c d) as [<-|N].
    + injection E as <- <-. destruct (split_on c s) as [|q qs] eqn:ES; [now apply split_on_nonempty in ES|].
      destruct (IH _ _ eq_refl) as (-> & LQ & F). repeat split. now constructor.
    + destruct (split_on c s) as [|q qs] eqn:ES; [now apply split_on_nonempty in ES|].
      injection E as <- <-. destruct (IH _ _ eq_refl) as (-> & LQ & F).
      repeat split; [congruence|assumption|assumption].
Qed.

Lemma slashed_fold : forall ps, slashed ps = fold_right (fun q t => String slash (q ++ t)) "" ps.
Proof. induction ps as [|p ps IH]; [reflexivity|]. cbn [slashed fold_right append]. rewrite IH. reflexivity. Qed.

Lemma match_iff : forall ts ps r, match_segs ts ps = Some r <-> exists ids, fits ts ps ids /\ r = hd_error ids.
Proof.
  induction ts as [|t ts IH]; intros ps r; destruct ps as [|p ps]; cbn [match_segs].
  - split; [intros [= <-]; exists []; repeat constructor|intros (ids & F & ->); inversion F; reflexivity].
  - split; [discriminate|intros (ids & F & _); inversion F].
  - split; [discriminate|intros (ids & F & _); inversion F].
  - destruct t as [| |l].
    + destruct (String.eqb_spec p "") as [->|NP].
      * split; [discriminate|intros (ids & F & _); inversion F; congruence].
      * destruct (match_segs ts ps) as [r'|] eqn:E.
        -- split.
           ++ intros [= <-]. destruct (proj1 (IH _ _) E) as (ids & F & _).
              exists (p :: ids). split; [now constructor|reflexivity].
           ++ intros (ids & F & ->). inversion F; subst. reflexivity.
        -- split; [discriminate|]. intros (ids & F & ->). inversion F as [| | |? ? ? ids' _ F']; subst.
           assert (K : match_segs ts ps = Some (hd_error ids')) by (apply IH; eauto). congruence.
    + destruct (String.eqb_spec p "") as [->|NP].
      * split; [discriminate|intros (ids & F & _); inversion F; congruence].
      * rewrite IH. split.
        -- intros (ids & F & ->). exists ids. split; [now constructor|reflexivity].
        -- intros (ids & F & ->). inversion F; subst. eauto.
    + destruct (String.eqb_spec l p) as [->|NP].
      * rewrite IH. split.
        -- intros (ids & F & ->). exists ids. split; [now constructor|reflexivity].
        -- intros (ids & F & ->). inversion F; subst. eauto.
      * split; [discriminate|]. intros (ids & F & _). inversion F; congruence.
Qed.

Lemma doc_id_some : forall s t, doc_id s = Some t <-> s <> "" /\ t = s.
Proof.
  intros [|c s] t; cbn; split; [discriminate|intros [N _]; contradiction|intros [= <-]; split; congruence|intros [_ ->]; reflexivity].
Qed.

Lemma fits_id : forall ts ps ids, fits ts ps ids -> Forall (fun s => s <> "") ids.
Proof. induction 1; auto. Qed.

Lemma path_iff : forall ts p id, path_param ts (Some p) = Some id <->
  exists ps ids, p = slashed ps /\ Forall (lacks slash) ps /\ fits ts ps (id :: ids).
Proof.
  intros ts p id. unfold path_param. split.
  - destruct (split_on slash p) as [|q ps] eqn:ES; [discriminate|]. destruct q; [|discriminate].
    destruct (match_segs ts ps) as [[i|]|] eqn:EM; try discriminate.
    intros H. apply doc_id_some in H. destruct H as [_ ->].
    destruct (split_inv _ _ _ _ ES) as (-> & _ & F). apply match_iff in EM. destruct EM as (ids & FT & E).
    destruct ids as [|i' ids]; [discriminate|]. injection E as <-.
    exists ps, ids. split; [symmetry; apply slashed_fold|auto].
  - intros (ps & ids & -> & F & FT). rewrite (slashed_fold ps).
    pose proof (split_slashed slash ps "" I F) as E. cbn [append] in E. rewrite E.
    assert (EM : match_segs ts ps = Some (Some id)) by (apply match_iff; exists (id :: ids); auto).
    rewrite EM. apply doc_id_some. split; [|reflexivity].
    pose proof (fits_id _ _ _ FT) as K. now inversion K.
Qed.

Lemma starts_slash : forall s, starts_with "/" s = true <-> exists r, s = ("/" ++ r)%string.
Proof.
  intros [|c s]; cbn [starts_with append]; [split; [discriminate|intros (r & E); discriminate E]|].
  destruct (Ascii.eqb_spec "/"%char c) as [<-|N].
  - split; [intros _; exists s; reflexivity|]. intros _. destruct s; reflexivity.
  - cbn [andb]. split; [discriminate|]. intros (r & E). injection E as E _. congruence.
Qed.

Lemma relative_iff : forall e p suf, e <> "/" -> relative_path e p = Some suf <->
  p = (e ++ suf)%string /\ (suf = "" \/ exists r, suf = ("/" ++ r)%string).
Proof.
  intros e p suf N. unfold relative_path. apply String.eqb_neq in N. rewrite N.
  destruct (strip e p) as [t|] eqn:ES.
  - apply strip_iff in ES. destruct (String.eqb_spec t "") as [->|NT]; cbn [negb andb].
    + split.
      * intros [= <-]. auto.
      * intros [E _]. rewrite ES in E. apply app_inj_l in E. now subst.
    + destruct (starts_with "/" t) eqn:EW; cbn [negb].
      * split.
        -- intros [= <-]. split; [exact ES|]. right. now apply starts_slash.
        -- intros [E _]. rewrite ES in E. apply app_inj_l in E. now subst.
      * split; [discriminate|]. intros [E H]. rewrite ES in E. apply app_inj_l in E. subst.
        destruct H as [->|H]; [contradiction|]. apply starts_slash in H. congruence.
  - split; [discriminate|]. intros [-> _]. rewrite (proj2 (strip_iff _ _ _) eq_refl) in ES. discriminate.
Qed.
