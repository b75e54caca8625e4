(** The tokenizer against the lexical grammar of the GraphQL specification. *)
From Coq Require Import String Ascii List NArith ZArith Bool Arith Lia.
From Verif Require Import StrUtil Ast CondModel NormModel JsonWriterModel JsonWriterProofs GqlModel GqlSpec GqlChars.
Import ListNotations.
Local Open Scope list_scope.
Local Open Scope string_scope.

(** * Numbers *)
Definition none_of (p : ascii -> bool) (s : string) : bool := all (fun c => negb (p c)) s.
Lemma drop_past a c b : drop_str (S (String.length a)) (a ++ String c b) = b.
Proof. induction a as [|x a IH]; [reflexivity|]. exact IH. Qed.
Lemma longer a b : Nat.ltb (String.length (a ++ b)) (String.length a) = false.
Proof. apply Nat.ltb_ge. rewrite length_app. lia. Qed.
Lemma beyond a c b : String.length (a ++ String c b) - S (String.length a) = String.length b.
Proof. rewrite length_app. cbn. lia. Qed.
Lemma last_none p s : none_of p s = true -> last_index p s = None.
Proof.
  induction s as [|c s IH]; cbn; [reflexivity|]. intros H. apply andb_true_iff in H as [H1 H2]. rewrite (IH H2).
  apply negb_true_iff in H1. rewrite H1. reflexivity.
Qed.
Lemma last_app p a c b : p c = true -> none_of p b = true -> last_index p (a ++ String c b) = Some (String.length a).
Proof.
  intros Hc Hb. induction a as [|x a IH]; cbn; [|rewrite IH; reflexivity].
  rewrite (last_none p b Hb), Hc. reflexivity.
Qed.
Lemma last_some p s i : last_index p s = Some i ->
  exists c, p c = true /\ s = take_str i s ++ String c (drop_str (S i) s) /\ none_of p (drop_str (S i) s) = true
            /\ String.length (take_str i s) = i.
Proof.
  revert i. induction s as [|c s IH]; intros i; cbn [last_index]; [discriminate|].
  destruct (last_index p s) as [j|] eqn:E.
  - intros H. injection H as <-. destruct (IH j eq_refl) as (d & Hd & Es & Hn & Hl). exists d. split; [exact Hd|].
    split; [cbn; f_equal; exact Es|]. split; [exact Hn|]. cbn. congruence.
  - destruct (p c) eqn:Hc; [|discriminate]. intros H. injection H as <-. exists c. split; [exact Hc|]. split; [reflexivity|].
    split; [|reflexivity]. cbn. clear -E. revert E. induction s as [|d s IH]; cbn; [reflexivity|].
    destruct (last_index p s); [discriminate|]. destruct (p d); [discriminate|]. intros _. cbn. auto.
Qed.
Lemma last_some_none p s : last_index p s = None -> none_of p s = true.
Proof.
  induction s as [|d s IH]; cbn; [reflexivity|].
  destruct (last_index p s); [discriminate|]. destruct (p d); [discriminate|]. intros _. cbn. auto.
Qed.
Lemma none_cons p c s : none_of p (String c s) = (negb (p c) && none_of p s)%bool.
Proof. reflexivity. Qed.
Lemma none_app p a b : none_of p (a ++ b) = (none_of p a && none_of p b)%bool.
Proof. unfold none_of. induction a as [|c a IH]; cbn; [reflexivity|]. rewrite IH. apply andb_assoc. Qed.
Lemma all_app p a b : all p (a ++ b) = (all p a && all p b)%bool.
Proof. induction a as [|c a IH]; cbn; [reflexivity|]. rewrite IH. apply andb_assoc. Qed.
Lemma all_impl (p q : ascii -> bool) s : (forall c, p c = true -> q c = true) -> all p s = true -> all q s = true.
Proof.
  intros H. induction s as [|c s IH]; cbn; [reflexivity|]. intros K. apply andb_true_iff in K as [K1 K2].
  rewrite (H _ K1). auto.
Qed.
Lemma implied_class (f g : ascii -> bool) :
  forallb (fun n => (negb (f (ascii_of_nat n)) || g (ascii_of_nat n))%bool) (seq 0 256) = true ->
  forall c, f c = true -> g c = true.
Proof.
  intros H c Hc. pose proof (all_ascii (fun c => (negb (f c) || g c)%bool) H c) as K. cbn in K. rewrite Hc in K. exact K.
Qed.

Definition is_e : ascii -> bool := one_of ["e"; "E"]%char.
Definition is_sign : ascii -> bool := one_of ["+"; "-"]%char.
Lemma is_e_spec c : is_e c = true <-> among "eE" c.
Proof. rewrite among_spec. reflexivity. Qed.
Lemma is_sign_spec c : is_sign c = true <-> among "+-" c.
Proof. rewrite among_spec. reflexivity. Qed.
Definition digits (s : string) : Prop := each_char Digit s.
Lemma digits_all s : digits s -> all digit s = true.
Proof. apply all_each. apply digit_spec. Qed.
Lemma all_digits s : all digit s = true -> digits s.
Proof. apply all_each. apply digit_spec. Qed.
Lemma int_shape v : IntegerPart v -> check_int v = true /\ none_of is_e v = true /\ none_of (is ".") v = true
  /\ none_of number_end v = true /\ exists c v', v = String c v' /\ (is "-" c || digit c)%bool = true.
Proof.
  assert (D : forall ds, digits ds -> none_of is_e ds = true /\ none_of (is ".") ds = true /\ none_of number_end ds = true).
  { intros ds H. apply digits_all in H.
    split; [|split]; (eapply all_impl; [|exact H]); apply implied_class; vm_compute; reflexivity. }
  assert (S0 : forall d, Digit d -> d <> "0"%char ->
    (negb (is_e d) && negb (is "." d) && negb (number_end d) && digit d && negb (is "0" d) && negb (is "-" d))%bool = true).
  { intros d Hd Hz. apply digit_spec in Hd. apply is_not in Hz.
    assert (K : (digit d && negb (is "0" d))%bool = true) by (rewrite Hd, Hz; reflexivity).
    revert K. revert d Hd Hz. intros d _ _.
    apply (implied_class (fun d => (digit d && negb (is "0" d))%bool)
      (fun d => (negb (is_e d) && negb (is "." d) && negb (number_end d) && digit d && negb (is "0" d) && negb (is "-" d))%bool)).
    vm_compute. reflexivity. }
  intros H. destruct H as [| |d ds Hd Hz Hds|d ds Hd Hz Hds].
  - repeat split; try reflexivity. exists "0"%char, "". split; reflexivity.
  - repeat split; try reflexivity. exists "-"%char, "0". split; reflexivity.
  - destruct (D ds Hds) as (D1 & D2 & D3). specialize (S0 d Hd Hz). rewrite !andb_true_iff in S0.
    destruct S0 as [[[[[S1 S2] S3] S4] S5] S6]. apply digits_all in Hds.
    split; [|split; [|split; [|split]]].
    + unfold check_int. apply orb_true_iff. right. cbn [tail starts_with]. rewrite Hds. unfold is in S5, S6.
      rewrite !andb_true_iff. repeat split; try reflexivity.
      * rewrite Ascii.eqb_sym in S5. destruct (Ascii.eqb "0" d); [discriminate S5|reflexivity].
      * destruct (String.eqb_spec (String d ds) "-") as [E|]; [|reflexivity]. injection E as -> ->. discriminate S6.
      * rewrite Ascii.eqb_sym in S6. destruct (Ascii.eqb "-" d); [discriminate S6|reflexivity].
    + rewrite ?none_cons, S1. exact D1.
    + rewrite ?none_cons, S2. exact D2.
    + rewrite ?none_cons, S3. exact D3.
    + exists d, ds. split; [reflexivity|]. rewrite S4. apply orb_true_r.
  - destruct (D ds Hds) as (D1 & D2 & D3). specialize (S0 d Hd Hz). rewrite !andb_true_iff in S0.
    destruct S0 as [[[[[S1 S2] S3] S4] S5] S6]. apply digits_all in Hds.
    split; [|split; [|split; [|split]]].
    + unfold check_int. apply orb_true_iff. right. cbn [tail starts_with all]. rewrite Hds, S4. unfold is in S5, S6.
      rewrite !andb_true_iff. repeat split; try reflexivity.
      rewrite Ascii.eqb_sym in S5. destruct (Ascii.eqb "0" d); [discriminate S5|reflexivity].
    + rewrite ?none_cons, S1. exact D1.
    + rewrite ?none_cons, S2. exact D2.
    + rewrite ?none_cons, S3. exact D3.
    + exists "-"%char, (String d ds). split; reflexivity.
Qed.
Lemma int_accepted c v' : (is "-" c || digit c)%bool = true -> check_int (String c v') = true -> IntegerPart (String c v').
Proof.
  intros Hc H. unfold check_int in H. apply orb_true_iff in H as [H|H].
  - apply orb_true_iff in H as [H|H]; apply String.eqb_eq in H; rewrite H; constructor.
  - rewrite !andb_true_iff in H. destruct H as [[[H1 H2] H3] H4]. cbn [starts_with tail] in H1, H3, H4.
    apply all_digits in H4. apply orb_true_iff in Hc as [Hc|Hc].
    + apply is_spec in Hc as ->. destruct v' as [|d ds]; [discriminate H2|]. cbn in H4. destruct H4 as [Hd Hds].
      constructor; [exact Hd| |exact Hds]. intros ->. discriminate H3.
    + apply digit_spec in Hc. constructor; [exact Hc| |exact H4]. intros ->. discriminate H1.
Qed.
Lemma digits_frac ds : digits ds -> none_of is_e ds = true /\ none_of (is ".") ds = true /\ none_of number_end ds = true.
Proof.
  intros H. apply digits_all in H.
  split; [|split]; (eapply all_impl; [|exact H]); apply implied_class; vm_compute; reflexivity.
Qed.
Lemma exp_shape x : ExponentPart x -> plain_exponent x ->
  exists e y, x = String e y /\ is_e e = true /\ check_exp y = true /\ none_of is_e y = true
    /\ none_of (is ".") y = true /\ none_of number_end y = true.
Proof.
  intros H Hp. destruct H as [e d ds He Hd Hds|e g d ds He Hg Hd Hds].
  - exists e, (String d ds). split; [reflexivity|]. split; [apply is_e_spec; exact He|].
    assert (K : (digit d && negb (is "0" d) && negb (is "9" d))%bool = true).
    { pose proof (Hp "" e d ds eq_refl He) as K. apply digit_spec in Hd. rewrite Hd. rewrite among_spec in K. cbn in K.
      unfold is. destruct (Ascii.eqb d "0"), (Ascii.eqb d "9"); cbn in K; try reflexivity; exfalso; apply K; reflexivity. }
    destruct (digits_frac ds Hds) as (D1 & D2 & D3).
    assert (C : (between "1" "8" d && negb (is_e d) && negb (is "." d) && negb (number_end d))%bool = true).
    { revert K. apply (implied_class (fun d => (digit d && negb (is "0" d) && negb (is "9" d))%bool)
        (fun d => (between "1" "8" d && negb (is_e d) && negb (is "." d) && negb (number_end d))%bool)). vm_compute. reflexivity. }
    rewrite !andb_true_iff in C. destruct C as [[[C1 C2] C3] C4]. rewrite !none_cons, C2, C3, C4, D1, D2, D3.
    cbn [check_exp]. rewrite C1, (digits_all ds Hds), andb_false_r. auto.
  - exists e, (String g (String d ds)). split; [reflexivity|]. split; [apply is_e_spec; exact He|].
    destruct (digits_frac (String d ds)) as (D1 & D2 & D3); [split; assumption|].
    assert (C : ((is "-" g || is "+" g) && negb (is_e g) && negb (is "." g) && negb (number_end g))%bool = true).
    { apply is_sign_spec in Hg. revert Hg.
      apply (implied_class is_sign (fun g => ((is "-" g || is "+" g) && negb (is_e g) && negb (is "." g) && negb (number_end g))%bool)).
      vm_compute. reflexivity. }
    rewrite !andb_true_iff in C. destruct C as [[[C1 C2] C3] C4].
    split; [|split; [|split]].
    + assert (Dd : all digit (String d ds) = true) by (apply digits_all; split; assumption). cbn [check_exp]. rewrite Dd.
      apply orb_true_iff in C1 as [C1|C1]; rewrite C1; [reflexivity|]. rewrite andb_false_r. reflexivity.
    + change (none_of is_e (String g (String d ds))) with (negb (is_e g) && none_of is_e (String d ds))%bool. rewrite C2, D1. reflexivity.
    + change (none_of (is ".") (String g (String d ds))) with (negb (is "." g) && none_of (is ".") (String d ds))%bool. rewrite C3, D2. reflexivity.
    + change (none_of number_end (String g (String d ds))) with (negb (number_end g) && none_of number_end (String d ds))%bool. rewrite C4, D3. reflexivity.
Qed.
Lemma plain_exp_r a b : plain_exponent (a ++ b) -> plain_exponent b.
Proof. intros H x e d y ->. apply (H (a ++ x) e d y). symmetry. apply string_app_assoc. Qed.
Lemma number_tokens e r v : last_index (one_of ["e"; "E"]%char) v = e -> last_index (is ".") v = r -> (e <> None \/ r <> None) ->
  match last_index (one_of ["e"; "E"]%char) v, last_index (is ".") v with
  | None, None => if check_int v then Some KInt else None
  | e, d => if check_float v e d then Some KFloat else None
  end = if check_float v e r then Some KFloat else None.
Proof. intros -> -> H. destruct e, r; try reflexivity. destruct H; congruence. Qed.
Lemma e_not_number_end e : is_e e = true -> number_end e = false /\ is "." e = false.
Proof.
  intros H. assert (K : (negb (number_end e) && negb (is "." e))%bool = true).
  { revert H. apply (implied_class is_e (fun e => (negb (number_end e) && negb (is "." e))%bool)). vm_compute. reflexivity. }
  apply andb_true_iff in K as [K1 K2]. apply negb_true_iff in K1, K2. auto.
Qed.
Lemma float_shape v : FloatText v -> plain_exponent v ->
  none_of number_end v = true /\ (exists c v', v = String c v' /\ (is "-" c || digit c)%bool = true) /\
  exists e r, last_index is_e v = e /\ last_index (is ".") v = r /\ (e <> None \/ r <> None) /\ check_float v e r = true.
Proof.
  intros H Hp. destruct H as [i f Hi Hf|i x Hi Hx|i f x Hi Hf Hx].
  - destruct (int_shape i Hi) as (C & N1 & N2 & N3 & c & i' & -> & Hc). destruct Hf as [d ds Hd Hds].
    destruct (digits_frac (String d ds)) as (D1 & D2 & D3); [split; assumption|].
    assert (Dd : all digit (String d ds) = true) by (apply digits_all; split; assumption).
    split; [|split].
    + rewrite none_app, N3. exact D3.
    + exists c, (i' ++ String "." (String d ds)). auto.
    + exists None, (Some (String.length (String c i'))). split; [|split; [|split]].
      * apply last_none. rewrite none_app, N1. exact D1.
      * apply last_app; [reflexivity|exact D2].
      * right. discriminate.
      * cbn [check_float]. rewrite take_app, C.
        rewrite drop_past. unfold check_dec. rewrite Dd. reflexivity.
  - destruct (int_shape i Hi) as (C & N1 & N2 & N3 & c & i' & -> & Hc).
    destruct (exp_shape x Hx (plain_exp_r _ _ Hp)) as (e & y & -> & He & Ce & E1 & E2 & E3).
    destruct (e_not_number_end e He) as [K1 K2].
    split; [|split].
    + rewrite none_app, N3, none_cons, K1. exact E3.
    + exists c, (i' ++ String e y). auto.
    + exists (Some (String.length (String c i'))), None. split; [|split; [|split]].
      * apply last_app; [exact He|exact E1].
      * apply last_none. rewrite none_app, N2, none_cons, K2. exact E2.
      * left. discriminate.
      * cbn [check_float]. rewrite take_app, C.
        rewrite drop_past. exact Ce.
  - destruct (int_shape i Hi) as (C & N1 & N2 & N3 & c & i' & -> & Hc). destruct Hf as [d ds Hd Hds].
    destruct (digits_frac (String d ds)) as (D1 & D2 & D3); [split; assumption|].
    assert (Dd : all digit (String d ds) = true) by (apply digits_all; split; assumption).
    destruct (exp_shape x Hx) as (e & y & -> & He & Ce & E1 & E2 & E3).
    { eapply plain_exp_r. eapply plain_exp_r. exact Hp. }
    destruct (e_not_number_end e He) as [K1 K2]. set (i := String c i') in *. set (f := String d ds) in *.
    assert (Ev : i ++ String "." f ++ String e y = (i ++ String "." f) ++ String e y) by (symmetry; apply string_app_assoc).
    split; [|split].
    + rewrite !none_app, N3, !none_cons, D3, K1, E3. reflexivity.
    + exists c, (i' ++ String "." f ++ String e y). auto.
    + exists (Some (String.length (i ++ String "." f))), (Some (String.length i)). split; [|split; [|split]].
      * rewrite Ev. apply last_app; [exact He|exact E1].
      * change (String "." f ++ String e y) with (String "." (f ++ String e y)). apply last_app; [reflexivity|].
        rewrite none_app, D2, none_cons, K2. exact E2.
      * left. discriminate.
      * cbn [check_float]. rewrite longer.
        rewrite take_app, C. unfold slice.
        assert (Da : drop_str (S (String.length i)) (i ++ String "." f ++ String e y) = f ++ String e y) by (apply (drop_past i "." (f ++ String e y))).
        rewrite Da. rewrite beyond.
        rewrite take_app. unfold check_dec. rewrite Dd. cbn [negb andb String.eqb].
        rewrite Ev, drop_past. exact Ce.
Qed.
