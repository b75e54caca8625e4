(** The vectorised string writer computes the byte-wise escaping, stays inside the memory it
    reserved, and its output reads back as the input. *)
From Coq Require Import String Ascii List NArith Arith Lia Bool.
From Verif Require Import StrUtil JsonWriterModel JsonText.
Import ListNotations.
Local Open Scope list_scope.

(** Byte-wise writer over byte lists. *)
Definition esc1 (c : byte) : bytes := match quote_tab c with [] => [c] | e => e end.
Definition esc (s : bytes) : bytes := flat_map esc1 s.

Lemma all_ascii (P : ascii -> bool) :
  (forallb (fun n => P (ascii_of_nat n)) (seq 0 256)) = true -> forall c, P c = true.
Proof.
  intros H c. rewrite forallb_forall in H.
  rewrite <- (ascii_nat_embedding c). apply H. apply in_seq.
  pose proof (nat_ascii_bounded c). lia.
Qed.

Lemma tab_needs c : needs_escape c = negb (match quote_tab c with [] => true | _ => false end).
Proof.
  apply Bool.eqb_prop.
  revert c. apply (all_ascii (fun c => Bool.eqb (needs_escape c) _)). vm_compute. reflexivity.
Qed.

Lemma tab_len c : length (quote_tab c) <= 6.
Proof.
  apply Nat.leb_le. revert c. apply (all_ascii (fun c => length (quote_tab c) <=? 6)).
  vm_compute. reflexivity.
Qed.

Lemma esc1_safe c : needs_escape c = false -> esc1 c = [c].
Proof. rewrite tab_needs. unfold esc1. destruct (quote_tab c); [reflexivity|discriminate]. Qed.

Lemma esc_cons c s : esc (c :: s) = esc1 c ++ esc s.
Proof. reflexivity. Qed.

Lemma esc_safe s : forallb (fun c => negb (needs_escape c)) s = true -> esc s = s.
Proof.
  induction s as [|c s IH]; [reflexivity|]. cbn [forallb]. intros H. apply andb_prop in H. destruct H as [H1 H2].
  rewrite esc_cons, IH by assumption. rewrite esc1_safe; [reflexivity|].
  destruct (needs_escape c); [discriminate|reflexivity].
Qed.

Lemma esc_app a b : esc (a ++ b) = esc a ++ esc b.
Proof. apply flat_map_app. Qed.

Lemma esc_len s : length (esc s) <= 6 * length s.
Proof.
  induction s as [|c s IH]; [cbn; lia|]. rewrite esc_cons, app_length. cbn [length].
  assert (length (esc1 c) <= 6).
  { unfold esc1. pose proof (tab_len c). destruct (quote_tab c); cbn in *; lia. }
  lia.
Qed.

Lemma first_offset_none s : first_offset s = None -> forallb (fun c => negb (needs_escape c)) s = true.
Proof.
  induction s as [|c s IH]; cbn; [reflexivity|].
  destruct (needs_escape c); [discriminate|]. destruct (first_offset s); [discriminate|]. auto.
Qed.

Lemma first_offset_some s n :
  first_offset s = Some n ->
  forallb (fun c => negb (needs_escape c)) (firstn n s) = true /\
  exists c r, skipn n s = c :: r /\ needs_escape c = true /\ n < length s.
Proof.
  revert n. induction s as [|c s IH]; intros n; cbn; [discriminate|].
  destruct (needs_escape c) eqn:E.
  - intros [= <-]. cbn. split; [reflexivity|]. exists c, s. repeat split; auto. lia.
  - destruct (first_offset s) as [m|] eqn:F; [|discriminate]. intros [= <-].
    destruct (IH m eq_refl) as (A & c' & r & B & C & D). cbn. rewrite E. cbn.
    split; [exact A|]. exists c', r. cbn. repeat split; auto. lia.
Qed.

(** Invariant: [done] source bytes have been consumed. *)
Definition inv (lanes total : nat) (start : bytes) (done : bytes) (rest : bytes) (w : wstate) : Prop :=
  written w = start ++ esc done /\ length done + length rest = total /\
  touched w <= length start + total * 6 + 32.

Lemma inv_touch lanes total start done rest w n :
  n <= 32 \/ (n <= 38 /\ rest <> []) ->
  inv lanes total start done rest w -> inv lanes total start done rest (touch w n).
Proof.
  intros Hn (A & B & C). repeat split; cbn; auto. rewrite A, app_length.
  pose proof (esc_len done). destruct Hn as [Hn|[Hn Hr]]; [lia|].
  destruct rest; [contradiction|]. cbn in *. lia.
Qed.

Lemma inv_advance lanes total start done rest w x y e :
  inv lanes total start done rest w -> rest = x ++ y -> e = esc x ->
  inv lanes total start (done ++ x) y (advance w e).
Proof.
  intros (A & B & C) -> ->. repeat split; cbn; auto.
  - rewrite A, esc_app, app_assoc. reflexivity.
  - rewrite app_length in *. lia.
Qed.

Lemma escape_unchecked_spec lanes total start :
  forall src done w c r,
  src = c :: r -> needs_escape c = true ->
  inv lanes total start done src w ->
  exists x y w', escape_unchecked src w = Some (y, w') /\ src = x ++ y /\ x <> [] /\
                 inv lanes total start (done ++ x) y w'.
Proof.
  induction src as [|c src IH]; intros done w c' r E Hc I; [discriminate|].
  injection E as <- <-. cbn [escape_unchecked].
  rewrite tab_needs in Hc. destruct (quote_tab c) as [|e0 e] eqn:Q; [discriminate|]. cbv zeta.
  set (w1 := advance (touch w 8) (e0 :: e)).
  assert (I1 : inv lanes total start (done ++ [c]) src w1).
  { apply (inv_advance _ _ _ done (c :: src) (touch w 8) [c] src); [|reflexivity|].
    - apply inv_touch; [left; lia|exact I].
    - cbn. unfold esc1. rewrite Q. rewrite app_nil_r. reflexivity. }
  destruct src as [|d src'].
  - exists [c], [], w1. repeat split; auto; try apply I1. discriminate.
  - destruct (needs_escape d) eqn:D.
    + destruct (IH (done ++ [c]) w1 d src' eq_refl D I1) as (x & y & w' & E1 & E2 & E3 & E4).
      exists (c :: x), y, w'. split; [exact E1|]. split; [cbn; rewrite <- E2; reflexivity|].
      split; [discriminate|]. rewrite <- app_assoc in E4. exact E4.
    + exists [c], (d :: src'), w1. repeat split; auto; try apply I1. discriminate.
Qed.

Section L.
  Variable lanes : nat.
  Variable beyond : bytes -> bytes.
  Hypothesis lanes_pos : 0 < lanes.
  Hypothesis lanes_max : lanes <= 32.

  Lemma tail_spec total start : forall fuel src done w,
    length src < fuel -> length src < lanes -> inv lanes total start done src w ->
    exists w', tail_loop lanes beyond fuel src w = Some w' /\ inv lanes total start (done ++ src) [] w'.
  Proof.
    induction fuel as [|fuel IH]; intros src done w Hf Hl I; [lia|].
    destruct src as [|c0 src0].
    - exists w. split; [reflexivity|]. rewrite app_nil_r. exact I.
    - cbn [tail_loop]. set (src := c0 :: src0) in *. cbv zeta.
      assert (E : firstn (length src) (firstn lanes (src ++ beyond src)) = src).
      { rewrite firstn_firstn. rewrite Nat.min_l by lia.
        rewrite firstn_app, Nat.sub_diag, firstn_all. cbn [firstn]. apply app_nil_r. }
      rewrite E. clear E.
      destruct (first_offset src) as [n|] eqn:F.
      + apply first_offset_some in F. destruct F as (A & c & r & B & C & D).
        assert (I1 : inv lanes total start (done ++ firstn n src) (skipn n src)
                         (advance (touch w lanes) (firstn n src))).
        { eapply (inv_advance _ _ _ done src _ (firstn n src) (skipn n src)).
          - apply inv_touch; [left; lia|exact I].
          - symmetry. apply firstn_skipn.
          - rewrite esc_safe by assumption. reflexivity. }
        destruct (escape_unchecked_spec lanes total start (skipn n src) _ _ c r B C I1)
          as (x & y & w' & E1 & E2 & E3 & E4).
        rewrite E1.
        assert (length y < length src).
        { pose proof (firstn_skipn n src) as Q. rewrite E2 in Q. rewrite <- Q, !app_length.
          destruct x; [contradiction|]. cbn. lia. }
        destruct (IH y (((done ++ firstn n src) ++ x)) w') as (w'' & G1 & G2); [lia|lia|exact E4|].
        exists w''. split; [exact G1|].
        replace (done ++ src) with (((done ++ firstn n src) ++ x) ++ y); [exact G2|].
        rewrite <- !app_assoc. rewrite <- E2, firstn_skipn. reflexivity.
      + eexists. split; [reflexivity|].
        eapply (inv_advance _ _ _ done src _ src []).
        * apply inv_touch; [left; lia|exact I].
        * symmetry. apply app_nil_r.
        * rewrite esc_safe; [reflexivity|]. apply first_offset_none. exact F.
  Qed.

  Lemma main_spec total start : forall fuel src done w,
    length src < fuel -> inv lanes total start done src w ->
    exists w', main_loop lanes beyond fuel src w = Some w' /\ inv lanes total start (done ++ src) [] w'.
  Proof.
    induction fuel as [|fuel IH]; intros src done w Hf I; [lia|].
    cbn [main_loop].
    destruct (lanes <=? length src) eqn:L.
    2:{ apply Nat.leb_gt in L. apply tail_spec; auto. }
    apply Nat.leb_le in L. cbv zeta.
    destruct (first_offset (firstn lanes src)) as [n|] eqn:F.
    - apply first_offset_some in F. destruct F as (A & c & r & B & C & D).
      rewrite firstn_length, Nat.min_l in D by lia.
      rewrite firstn_firstn, Nat.min_l in A by lia.
      assert (B' : exists r', skipn n src = c :: r').
      { eexists. transitivity (skipn n (firstn lanes src ++ skipn lanes src)).
        - rewrite firstn_skipn. reflexivity.
        - rewrite skipn_app, B. reflexivity. }
      destruct B' as [r' B'].
      assert (I1 : inv lanes total start (done ++ firstn n src) (skipn n src)
                       (advance (touch w lanes) (firstn n src))).
      { eapply (inv_advance _ _ _ done src _ (firstn n src) (skipn n src)).
        - apply inv_touch; [left; lia|exact I].
        - symmetry. apply firstn_skipn.
        - rewrite esc_safe by assumption. reflexivity. }
      destruct (escape_unchecked_spec lanes total start (skipn n src) _ _ c r' B' C I1)
        as (x & y & w' & E1 & E2 & E3 & E4).
      rewrite E1.
      assert (length y < length src).
      { pose proof (firstn_skipn n src) as Q. rewrite E2 in Q. rewrite <- Q, !app_length.
        destruct x; [contradiction|]. cbn. lia. }
      destruct (IH y (((done ++ firstn n src) ++ x)) w') as (w'' & G1 & G2); [lia|exact E4|].
      exists w''. split; [exact G1|].
      replace (done ++ src) with (((done ++ firstn n src) ++ x) ++ y); [exact G2|].
      rewrite <- !app_assoc. rewrite <- E2, firstn_skipn. reflexivity.
    - assert (I1 : inv lanes total start (done ++ firstn lanes src) (skipn lanes src)
                       (advance (touch w lanes) (firstn lanes src))).
      { eapply (inv_advance _ _ _ done src _ (firstn lanes src) (skipn lanes src)).
        - apply inv_touch; [left; lia|exact I].
        - symmetry. apply firstn_skipn.
        - rewrite esc_safe; [reflexivity|]. apply first_offset_none. exact F. }
      assert (Hs : length (skipn lanes src) < fuel) by (rewrite skipn_length; lia).
      destruct (IH _ _ _ Hs I1) as (w'' & G1 & G2).
      exists w''. split; [exact G1|]. rewrite <- app_assoc, firstn_skipn in G2. exact G2.
  Qed.

  Lemma format_string_spec input q :
    exists w, format_string lanes beyond input q = Some w /\
              written w = (if q then quote ++ esc input ++ quote else esc input) /\
              touched w <= reserved input.
  Proof.
    unfold format_string. cbv zeta.
    set (w0 := if q then _ else _).
    assert (I : inv lanes (length input) (if q then quote else []) [] input w0).
    { unfold inv, w0. destruct q; cbn; repeat split; try lia. }
    destruct (main_spec (length input) (if q then quote else []) (S (length input)) input [] w0)
      as (w & E & A & B & C); [lia|exact I|].
    rewrite E. eexists. split; [reflexivity|]. cbn [app] in A.
    unfold reserved. pose proof (esc_len input).
    destruct q; cbn -[esc Nat.mul] in *.
    - rewrite A. cbn -[esc Nat.mul]. split; [reflexivity|]. cbn -[Nat.mul] in *. lia.
    - split; [exact A|]. lia.
  Qed.
End L.

(** ** Strings *)
Lemma list_of_app a b :
  list_ascii_of_string (a ++ b)%string = list_ascii_of_string a ++ list_ascii_of_string b.
Proof. induction a as [|c a IH]; cbn; [reflexivity|]. rewrite IH. reflexivity. Qed.

Lemma escape_list s : list_ascii_of_string (escape s) = esc (list_ascii_of_string s).
Proof.
  induction s as [|c s IH]; [reflexivity|]. cbn [escape list_ascii_of_string]. rewrite esc_cons.
  unfold esc1. destruct (quote_tab c) as [|e0 e] eqn:Q; cbn [list_ascii_of_string app].
  - rewrite IH. reflexivity.
  - rewrite list_of_app, list_ascii_of_string_of_list_ascii, IH. reflexivity.
Qed.

Lemma writer_is_quoted lanes beyond s :
  0 < lanes -> lanes <= 32 ->
  exists w, format_string lanes beyond (list_ascii_of_string s) true = Some w /\
            string_of_list_ascii (written w) = quoted s /\
            touched w <= reserved (list_ascii_of_string s).
Proof.
  intros H1 H2. destruct (format_string_spec lanes beyond H1 H2 (list_ascii_of_string s) true)
    as (w & A & B & C).
  exists w. split; [exact A|]. split; [|exact C]. rewrite B. unfold quoted.
  rewrite <- escape_list.
  change quote with (list_ascii_of_string (String (chr 34) "")).
  rewrite <- !list_of_app, string_of_list_ascii_of_string. reflexivity.
Qed.

Local Open Scope string_scope.

(** Every byte reads back. *)
Lemma push_push a b r : push a (push b r) = push (a ++ b) r.
Proof. destruct r as [[x y]|]; cbn; [|reflexivity]. rewrite string_app_assoc. reflexivity. Qed.

Lemma read_esc1_tab c e0 e rest :
  quote_tab c = e0 :: e ->
  read_string (string_of_list_ascii (e0 :: e) ++ rest) = push (String c "") (read_string rest).
Proof.
  intros Q. rewrite <- Q. assert (N : quote_tab c <> []) by congruence. clear Q e0 e. revert N.
  assert (H : forall c, match quote_tab c with
                        | [a; b] => N.eqb (code a) 92 &&
                            existsb (fun xy => N.eqb (code b) (fst xy) && N.eqb (code c) (snd xy))
                              [(34, 34); (92, 92); (98, 8); (102, 12); (110, 10); (114, 13); (116, 9)]%N
                        | [a; b; x; y; z; t] => N.eqb (code a) 92 && N.eqb (code b) 117 &&
                            match hex4 x y z t with
                            | Some u => N.eqb u (code c) && N.ltb u 128
                            | None => false
                            end
                        | [] => true
                        | _ => false
                        end = true).
  { apply all_ascii. vm_compute. reflexivity. }
  specialize (H c). intros N.
  assert (CC : forall n, N.eqb (code c) n = true -> c = ascii_of_N n).
  { intros n E. apply N.eqb_eq in E. rewrite <- E. unfold code. symmetry. apply ascii_N_embedding. }
  destruct (quote_tab c) as [|a [|b [|x [|y [|z [|t [|? ?]]]]]]]; try discriminate; [congruence| |].
  - apply andb_prop in H. destruct H as [Ha H]. apply N.eqb_eq in Ha.
    cbn [string_of_list_ascii append read_string].
    rewrite Ha. cbn [N.eqb N.leb Pos.eqb].
    change (92 <=? 31)%N with false. cbv iota. cbn [existsb fst snd] in H.
    repeat (apply orb_prop in H; destruct H as [H|H];
            [apply andb_prop in H; destruct H as [Hb Hc]; apply CC in Hc; apply N.eqb_eq in Hb;
             rewrite ?Hb; subst c; cbn [N.eqb Pos.eqb]; try reflexivity;
             rewrite <- (ascii_N_embedding b); unfold code in Hb; rewrite Hb; reflexivity|]).
    discriminate.
  - apply andb_prop in H. destruct H as [H H2]. apply andb_prop in H. destruct H as [Ha Hb].
    apply N.eqb_eq in Ha. apply N.eqb_eq in Hb.
    cbn [string_of_list_ascii append read_string].
    rewrite Ha, Hb. cbn [N.eqb N.leb Pos.eqb].
    change (92 <=? 31)%N with false. cbv iota.
    destruct (hex4 x y z t) as [u|]; [|discriminate].
    apply andb_prop in H2. destruct H2 as [H2 H3]. apply N.eqb_eq in H2. apply N.ltb_lt in H3.
    replace (55296 <=? u)%N with false by (symmetry; apply N.leb_gt; apply N.lt_trans with 128%N; [exact H3|reflexivity]).
    replace (56320 <=? u)%N with false by (symmetry; apply N.leb_gt; apply N.lt_trans with 128%N; [exact H3|reflexivity]).
    cbn [andb]. unfold utf8. replace (u <? 128)%N with true by (symmetry; apply N.ltb_lt; exact H3).
    rewrite H2. unfold code. rewrite ascii_N_embedding. reflexivity.
Qed.

Lemma read_plain c rest :
  needs_escape c = false -> read_string (String c rest) = push (String c "") (read_string rest).
Proof.
  intros H. cbn [read_string]. unfold needs_escape in H.
  apply orb_false_elim in H. destruct H as [H H3]. apply orb_false_elim in H. destruct H as [H1 H2].
  unfold code. rewrite H1, H2, H3. reflexivity.
Qed.

Lemma read_escape s rest :
  read_string (escape s ++ String (chr 34) rest) = Some (s, rest).
Proof.
  induction s as [|c s IH]; [reflexivity|].
  cbn [escape]. destruct (quote_tab c) as [|e0 e] eqn:Q.
  - cbn [append]. rewrite read_plain.
    + rewrite IH. reflexivity.
    + rewrite tab_needs, Q. reflexivity.
  - rewrite string_app_assoc. rewrite (read_esc1_tab c) by exact Q. rewrite IH. reflexivity.
Qed.

Lemma skip_ws_cons c r : is_jws c = false -> skip_ws (String c r) = String c r.
Proof. intros H. cbn. rewrite H. reflexivity. Qed.

Lemma read_value_quoted fuel s rest :
  read_value (S fuel) (quoted s ++ rest) = Some (JStr s, rest).
Proof.
  unfold quoted. cbn [append read_value].
  rewrite skip_ws_cons by reflexivity.
  change (N.eqb (code (chr 34)) 123) with false. change (N.eqb (code (chr 34)) 91) with false.
  change (N.eqb (code (chr 34)) 34) with true. cbv iota.
  rewrite string_app_assoc. change (String (chr 34) "" ++ rest) with (String (chr 34) rest).
  rewrite read_escape. reflexivity.
Qed.

Lemma quoted_text s : text_of (quoted s) (JStr s).
Proof. split; [discriminate|]. intros. apply read_value_quoted. Qed.

Lemma quoted_decodes s : decode (quoted s) = Some (JStr s).
Proof.
  unfold decode. rewrite <- (string_app_nil_r (quoted s)) at 2. rewrite read_value_quoted. reflexivity.
Qed.

(** No raw control character and no unescaped quote inside. *)
Lemma esc_no_control s : forallb (fun c => negb (N.leb (N_of_ascii c) 31)) (esc s) = true.
Proof.
  induction s as [|c s IH]; [reflexivity|]. rewrite esc_cons.
  rewrite forallb_app, IH, andb_true_r.
  revert c. apply (all_ascii (fun c => forallb _ (esc1 c))). vm_compute. reflexivity.
Qed.
Lemma escape_no_control s : all_chars (fun c => negb (N.leb (N_of_ascii c) 31)) (escape s) = true.
Proof.
  assert (H : forall p t, all_chars p t = forallb p (list_ascii_of_string t)).
  { intros p. induction t as [|c t IH]; cbn; [reflexivity|]. rewrite IH. reflexivity. }
  rewrite H, escape_list. apply esc_no_control.
Qed.

(** ** Named operations *)
Lemma escape_app a b : escape (a ++ b) = escape a ++ escape b.
Proof.
  induction a as [|c a IH]; [reflexivity|]. cbn [append escape].
  destruct (quote_tab c); rewrite IH; [reflexivity|]. rewrite string_app_assoc. reflexivity.
Qed.

Lemma take_drop n s : take_str n s ++ drop_str n s = s.
Proof. revert s. induction n as [|n IH]; intros [|c s]; cbn; try reflexivity. rewrite IH. reflexivity. Qed.
