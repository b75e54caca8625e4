From Coq Require Import String Ascii List Bool.
From Verif Require Import StrUtil HeadersModel HeadersSpec HeadersProofs CacheControlModel
  CsrfModel CsrfSpec.
Import ListNotations.
Local Open Scope string_scope.

Lemma starts_with_iff p s : starts_with p s = true <-> exists r, s = p ++ r.
Proof.
  revert s. induction p as [|a p IH]; intro s; cbn [starts_with append].
  - split; [intros _; exists s; reflexivity|reflexivity].
  - destruct s as [|b s].
    + split; [discriminate|]. intros [r E]. discriminate.
    + rewrite andb_true_iff, IH, Ascii.eqb_eq. split.
      * intros [-> [r ->]]. exists r. reflexivity.
      * intros [r E]. injection E as -> ->. split; [reflexivity|exists r; reflexivity].
Qed.

Lemma lower_app a b : lower (a ++ b) = lower a ++ lower b.
Proof. induction a as [|c a IH]; cbn [append lower]; [reflexivity|]. rewrite IH. reflexivity. Qed.

Lemma lower_idem_char c : lower_char (lower_char c) = lower_char c.
Proof. destruct c as [[|] [|] [|] [|] [|] [|] [|] [|]]; reflexivity. Qed.
Lemma ws_lower c : is_ws (lower_char c) = is_ws c.
Proof. destruct c as [[|] [|] [|] [|] [|] [|] [|] [|]]; reflexivity. Qed.
Lemma semi_lower c : Ascii.eqb ";" (lower_char c) = Ascii.eqb ";" c.
Proof. destruct c as [[|] [|] [|] [|] [|] [|] [|] [|]]; reflexivity. Qed.

Lemma trim_start_lower s : trim_start (lower s) = lower (trim_start s).
Proof.
  induction s as [|c s IH]; cbn [lower trim_start]; [reflexivity|].
  rewrite ws_lower. destruct (is_ws c); [exact IH|reflexivity].
Qed.
Lemma trim_end_lower s : trim_end (lower s) = lower (trim_end s).
Proof.
  induction s as [|c s IH]; cbn [lower trim_end]; [reflexivity|].
  rewrite IH. destruct (trim_end s); cbn [lower]; [|reflexivity].
  rewrite ws_lower. destruct (is_ws c); reflexivity.
Qed.
Lemma trim_lower s : trim (lower s) = lower (trim s).
Proof. unfold trim. rewrite trim_start_lower. apply trim_end_lower. Qed.

Lemma split_lower s : split_on ";" (lower s) = map lower (split_on ";" s).
Proof.
  induction s as [|c s IH]; cbn [lower split_on]; [reflexivity|].
  rewrite semi_lower. destruct (Ascii.eqb ";" c); cbn [map]; rewrite IH; [reflexivity|].
  destruct (split_on ";" s); reflexivity.
Qed.

(** The essence of the lower-cased value, without any lower-casing inside. *)
Lemma essence_lower v :
  essence v = match split_on ";" (lower v) with t :: _ => trim t | [] => "" end.
Proof.
  unfold essence. rewrite split_lower. destruct (split_on ";" v); cbn [map]; [reflexivity|].
  symmetry. apply trim_lower.
Qed.

Lemma split_head_prefix c s t ts : split_on c s = t :: ts -> exists r, s = t ++ r.
Proof.
  revert t ts. induction s as [|d s IH]; intros t ts; cbn [split_on].
  - intro E. injection E as <- <-. exists "". reflexivity.
  - destruct (Ascii.eqb c d).
    + intro E. injection E as <- <-. eexists. reflexivity.
    + destruct (split_on c s) as [|p ps]; intro E; injection E as <- <-.
      * eexists. reflexivity.
      * destruct (IH p ps eq_refl) as [r ->]. exists r. reflexivity.
Qed.

Lemma trim_end_prefix s : exists r, s = trim_end s ++ r.
Proof.
  induction s as [|c s [r IH]]; cbn [trim_end]; [exists ""; reflexivity|].
  destruct (trim_end s) as [|d t] eqn:E.
  - destruct (is_ws c); [exists (String c s); reflexivity|exists s; reflexivity].
  - exists r. rewrite IH at 1. reflexivity.
Qed.

Lemma trim_start_prefix a b : trim_start (a ++ b) = a ++ b -> a <> "" -> trim_start a = a.
Proof.
  destruct a as [|c a]; [congruence|]. cbn [append trim_start]. intros E _.
  destruct (is_ws c); [|reflexivity].
  exfalso. assert (L : forall s, String.length (trim_start s) <= String.length s).
  { intro s. induction s as [|d s IH]; cbn [trim_start String.length]; [auto|].
    destruct (is_ws d); [apply le_S; exact IH|cbn [String.length]; auto]. }
  specialize (L (a ++ b)). rewrite E in L. cbn [String.length] in L.
  exact (PeanoNat.Nat.nle_succ_diag_l _ L).
Qed.

(** A trimmed value starts with its own essence, letter case aside. *)
Lemma essence_prefix v : trim_start v = v -> exists r, lower v = essence v ++ r.
Proof.
  intro T. rewrite essence_lower.
  assert (Tl : trim_start (lower v) = lower v) by (rewrite trim_start_lower, T; reflexivity).
  revert Tl. generalize (lower v). clear v T. intros v T.
  destruct (split_on ";" v) as [|t ts] eqn:E; [exists v; reflexivity|].
  destruct (split_head_prefix _ _ _ _ E) as [r ->]. unfold trim.
  destruct (string_dec t "") as [->|Hne]; [exists r; reflexivity|].
  rewrite (trim_start_prefix t r T Hne). destruct (trim_end_prefix t) as [q Hq].
  exists (q ++ r). rewrite <- string_app_assoc. rewrite <- Hq. reflexivity.
Qed.

Lemma simple_starts v :
  trim_start v = v -> In (essence v) simple_essences -> is_simple_content_type v = true.
Proof.
  intros T I. apply existsb_exists. exists (essence v). split.
  - unfold simple_essences in I. unfold non_preflighted.
    destruct I as [<-|[<-|[<-|[]]]]; [right; right; left|left|right; left]; reflexivity.
  - apply starts_with_iff. apply essence_prefix. exact T.
Qed.

Lemma trim_end_nil_app a b : trim_end b = "" -> trim_end (a ++ b) = trim_end a.
Proof.
  intro E. induction a as [|c a IH]; cbn [append trim_end]; [exact E|]. rewrite IH. reflexivity.
Qed.

Lemma trim_end_trim_end s : trim_end (trim_end s) = trim_end s.
Proof.
  induction s as [|c s IH]; cbn [trim_end]; [reflexivity|].
  destruct (trim_end s) as [|d t] eqn:E.
  - destruct (is_ws c) eqn:W; [reflexivity|]. cbn [trim_end]. rewrite W. reflexivity.
  - cbn [trim_end] in *. rewrite IH. reflexivity.
Qed.

Lemma trim_end_app_any a b :
  trim_end (a ++ b) = if String.eqb (trim_end b) "" then trim_end a else a ++ trim_end b.
Proof.
  destruct (String.eqb_spec (trim_end b) "") as [E|E]; [apply trim_end_nil_app; exact E|].
  induction a as [|c a IH]; cbn [append trim_end]; [reflexivity|]. rewrite IH.
  destruct (a ++ trim_end b) as [|d t] eqn:E'; [|reflexivity].
  destruct a; [cbn [append] in E'; congruence|discriminate E'].
Qed.

(** A word without separators is kept by [split_on] and [trim]. *)
Lemma split_on_word c a b :
  has_char c a = false ->
  match split_on c (a ++ b) with
  | t :: _ => exists r, t = a ++ r
  | [] => False
  end.
Proof.
  intro H. induction a as [|d a IH].
  - cbn [append]. destruct (split_on c b) as [|t ts] eqn:E; [exact (split_on_nonempty c b E)|].
    exists t. reflexivity.
  - unfold has_char in H. apply negb_false_iff in H. cbn [all_chars] in H.
    apply andb_true_iff in H. destruct H as [H1 H2]. apply negb_true_iff in H1.
    cbn [append split_on]. rewrite H1.
    assert (H3 : has_char c a = false) by (unfold has_char; rewrite H2; reflexivity).
    specialize (IH H3). destruct (split_on c (a ++ b)) as [|t ts]; [contradiction|].
    destruct IH as [r ->]. exists r. reflexivity.
Qed.

Lemma word_essence s v :
  has_char ";" s = false -> trim s = s -> s <> "" ->
  starts_with s (lower v) = true -> exists r, essence v = s ++ r.
Proof.
  intros Hs Ht Hn Hw. apply starts_with_iff in Hw. destruct Hw as [b Hb].
  rewrite essence_lower, Hb. pose proof (split_on_word ";" s b Hs) as W.
  destruct (split_on ";" (s ++ b)) as [|t ts]; [contradiction|]. destruct W as [r ->].
  unfold trim. assert (Ts : trim_start s = s).
  { unfold trim in Ht. destruct s as [|c s]; [reflexivity|]. cbn [trim_start] in *.
    destruct (is_ws c); [|reflexivity]. exfalso.
    assert (L : forall s, String.length (trim_start s) <= String.length s).
    { intro u. induction u as [|d u IH]; cbn [trim_start String.length]; [auto|].
      destruct (is_ws d); [apply le_S; exact IH|cbn [String.length]; auto]. }
    assert (L2 : forall s, String.length (trim_end s) <= String.length s).
    { intro u. destruct (trim_end_prefix u) as [q Hq]. rewrite Hq at 2.
      clear. generalize (trim_end u). intro w. induction w as [|d w IH]; cbn [append String.length];
        [apply le_0_n|apply le_n_S; exact IH]. }
    specialize (L2 (trim_start s)). rewrite Ht in L2. cbn [String.length] in L2.
    specialize (L s). apply (PeanoNat.Nat.nle_succ_diag_l (String.length s)).
    eapply PeanoNat.Nat.le_trans; [exact L2|exact L]. }
  assert (Tsr : trim_start (s ++ r) = s ++ r).
  { destruct s as [|c s]; [congruence|]. cbn [append trim_start] in *.
    destruct (is_ws c) eqn:W; [|reflexivity]. exfalso.
    assert (L : forall s, String.length (trim_start s) <= String.length s).
    { intro u. induction u as [|d u IH]; cbn [trim_start String.length]; [auto|].
      destruct (is_ws d); [apply le_S; exact IH|cbn [String.length]; auto]. }
    specialize (L s). rewrite Ts in L. cbn [String.length] in L.
    exact (PeanoNat.Nat.nle_succ_diag_l _ L). }
  rewrite Tsr, trim_end_app_any. unfold trim in Ht. rewrite Ts in Ht.
  destruct (String.eqb (trim_end r) "").
  - exists "". rewrite Ht, string_app_nil_r. reflexivity.
  - exists (trim_end r). reflexivity.
Qed.

Lemma contains_key_lines h n : contains_key h n = true <-> exists v, In v (lines n h).
Proof.
  unfold contains_key. rewrite hget_lines. destruct (lines n h) as [|v l]; cbn [hd_error].
  - split; [discriminate|]. intros [v []].
  - split; [intros _; exists v; left; reflexivity|reflexivity].
Qed.

Lemma required_iff c h :
  existsb (contains_key h) (cs_required c) = true <-> has_required (cs_required c) h.
Proof.
  rewrite existsb_exists. unfold has_required. split.
  - intros [n [Hn Hk]]. apply contains_key_lines in Hk. destruct Hk as [v Hv].
    exists n, v. split; assumption.
  - intros [n [v [Hn Hv]]]. exists n. split; [exact Hn|]. apply contains_key_lines. exists v. exact Hv.
Qed.

Lemma requires_preflight_sound h :
  trimmed_values h -> request_requires_preflight h = true -> preflighted_type h.
Proof.
  unfold request_requires_preflight, preflighted_type. rewrite hget_lines. intros T H.
  destruct (lines "content-type" h) as [|v l] eqn:E; [discriminate|]. cbn [hd_error] in *.
  exists v. split; [reflexivity|]. intro I. unfold to_str in H.
  destruct (all_chars visible_char v); [|discriminate].
  rewrite (simple_starts v) in H; [discriminate| |exact I].
  apply T. rewrite E. left. reflexivity.
Qed.

Lemma requires_preflight_complete h :
  ordinary_type h -> preflighted_type h -> request_requires_preflight h = true.
Proof.
  unfold request_requires_preflight, preflighted_type. rewrite hget_lines. intros O [v [Hv Hn]].
  rewrite Hv. destruct (O v Hv) as [V X]. unfold to_str. rewrite V. apply negb_true_iff.
  destruct (is_simple_content_type v) eqn:E; [|reflexivity]. exfalso.
  apply existsb_exists in E. destruct E as [s [Hs Ew]].
  assert (K : exists r, essence v = s ++ r).
  { apply word_essence; [| | |exact Ew];
      (destruct Hs as [<-|[<-|[<-|[]]]]; [vm_compute|vm_compute|vm_compute]; (reflexivity || discriminate)). }
  assert (Hs' : In s simple_essences).
  { unfold simple_essences.
    destruct Hs as [<-|[<-|[<-|[]]]]; [right; left|right; right; left|left]; reflexivity. }
  destruct K as [r Hr]. destruct (string_dec r "") as [->|Hne].
  - rewrite string_app_nil_r in Hr. rewrite Hr in Hn. contradiction.
  - apply X. exists s, r. split; [exact Hs'|]. split; [exact Hne|exact Hr].
Qed.

Lemma csrf_sound c h :
  cs_enabled c = true -> cs_required c <> [] -> trimmed_values h ->
  perform_csrf_prevention c h = true -> has_required (cs_required c) h \/ preflighted_type h.
Proof.
  unfold perform_csrf_prevention. intros -> R T. cbn [negb orb].
  destruct (cs_required c) as [|x l] eqn:E; [congruence|]. rewrite <- E.
  destruct (request_requires_preflight h) eqn:P; intro H.
  - right. apply requires_preflight_sound; assumption.
  - left. rewrite <- E in *. apply required_iff. exact H.
Qed.

Lemma csrf_complete c h :
  ordinary_type h -> has_required (cs_required c) h \/ preflighted_type h ->
  perform_csrf_prevention c h = true.
Proof.
  unfold perform_csrf_prevention. intros O H.
  destruct (negb (cs_enabled c) || _); [reflexivity|].
  destruct H as [H|H].
  - apply required_iff in H. rewrite H. destruct (request_requires_preflight h); reflexivity.
  - rewrite (requires_preflight_complete h O H). reflexivity.
Qed.

Lemma csrf_required c h : has_required (cs_required c) h -> perform_csrf_prevention c h = true.
Proof.
  unfold perform_csrf_prevention. intro H. apply required_iff in H. rewrite H.
  destruct (_ || _), (request_requires_preflight h); reflexivity.
Qed.
