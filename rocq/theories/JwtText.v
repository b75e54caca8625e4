(** The text functions of [StrUtil] and [JwtModel] against the relations of [JwtSpec]. *)
From Coq Require Import String Ascii List NArith Bool Lia.
From Verif Require Import StrUtil JwtModel JwtSpec.
Import ListNotations.
Local Open Scope string_scope.
Local Open Scope list_scope.

Lemma app_cons_inv (a : string) c b d s : (a ++ String c b)%string = String d s ->
  (a = "" /\ c = d /\ b = s) \/ exists a', a = String d a' /\ (a' ++ String c b)%string = s.
Proof.
  destruct a as [|x a]; cbn [append]; intro E; injection E as -> E2; [left; auto|right; exists a; auto].
Qed.
Lemma all_chars_iff p s : all_chars p s = true <-> forall a c b, s = (a ++ String c b)%string -> p c = true.
Proof.
  induction s as [|d s IH]; cbn [all_chars].
  - split; [|reflexivity]. intros _ a c b E. destruct a; discriminate.
  - rewrite andb_true_iff, IH. split.
    + intros [H1 H2] a c b E. symmetry in E. apply app_cons_inv in E as [(-> & -> & ->)|(a' & -> & E)]; [exact H1|].
      apply (H2 a' c b). now rewrite E.
    + intro H. split; [apply (H "" d s); reflexivity|]. intros a c b ->. apply (H (String d a) c b). reflexivity.
Qed.
Lemma free_nil c : free c "".
Proof. intros [|x a] b; discriminate. Qed.
Lemma free_cons c d s : free c (String d s) <-> c <> d /\ free c s.
Proof.
  split.
  - intro H. split; [intros ->; apply (H "" s); reflexivity|]. intros a b ->. apply (H (String d a) b). reflexivity.
  - intros [H1 H2] a b E. symmetry in E. apply app_cons_inv in E as [(-> & -> & ->)|(a' & -> & E)]; [now apply H1|].
    apply (H2 a' b). now rewrite E.
Qed.

Lemma split_once_some c s a b : split_once c s = Some (a, b) <-> s = (a ++ String c b)%string /\ free c a.
Proof.
  revert a b. induction s as [|d s IH]; intros a b; cbn [split_once].
  - split; [discriminate|]. intros [E _]. destruct a; discriminate.
  - destruct (Ascii.eqb_spec c d) as [<-|N].
    + split; [intro E; injection E as <- <-; split; [reflexivity|apply free_nil]|].
      intros [E F]. symmetry in E. apply app_cons_inv in E as [(-> & _ & ->)|(a' & -> & E)]; [reflexivity|].
      apply free_cons in F. now destruct F as [F _].
    + destruct (split_once c s) as [[x y]|] eqn:S.
      * pose proof (proj1 (IH x y) eq_refl) as [-> F]. split.
        -- intro E. injection E as <- <-. split; [reflexivity|]. apply free_cons. now split.
        -- intros [E G]. symmetry in E. apply app_cons_inv in E as [(-> & -> & ->)|(a' & -> & E)]; [now contradiction N|].
           apply free_cons in G as [_ G]. pose proof (proj2 (IH a' b) (conj (eq_sym E) G)) as K. injection K as <- <-. reflexivity.
      * split; [discriminate|]. intros [E G]. symmetry in E. apply app_cons_inv in E as [(-> & -> & ->)|(a' & -> & E)]; [now contradiction N|].
        apply free_cons in G as [_ G]. pose proof (proj2 (IH a' b) (conj (eq_sym E) G)) as K. discriminate.
Qed.
Lemma split_once_no c s : split_once c s = None <-> free c s.
Proof.
  induction s as [|d s IH]; cbn [split_once].
  - split; [intros _; apply free_nil|reflexivity].
  - rewrite free_cons. destruct (Ascii.eqb_spec c d) as [<-|N].
    + split; [discriminate|]. intros [H _]. now contradiction H.
    + rewrite <- IH. destruct (split_once c s) as [[x y]|]; [split; [discriminate|intros [_ H]; discriminate]|].
      split; [intros _; auto|reflexivity].
Qed.

Lemma split_on_ok c s : pieces c s (split_on c s).
Proof.
  induction s as [|d s (H1 & H2 & H3)]; cbn [split_on].
  - repeat split; [discriminate|]. constructor; [apply free_nil|constructor].
  - destruct (split_on c s) as [|p ps] eqn:E; [now contradiction H1|].
    destruct (Ascii.eqb_spec c d) as [<-|N].
    + repeat split; [discriminate| |constructor; [apply free_nil|exact H3]].
      rewrite H2. reflexivity.
    + repeat split; [discriminate| |].
      * rewrite H2. destruct ps; reflexivity.
      * inversion H3; subst. constructor; [apply free_cons; now split|assumption].
Qed.
Lemma concat_cons c (p q : string) l : String.concat c (p :: q :: l) = (p ++ c ++ String.concat c (q :: l))%string.
Proof. reflexivity. Qed.
Lemma free_cut c a b a' b' : free c a -> free c a' -> (a ++ String c b)%string = (a' ++ String c b')%string -> a = a' /\ b = b'.
Proof.
  intros F F' E.
  pose proof (proj2 (split_once_some c _ a b) (conj eq_refl F)) as K.
  rewrite E in K. rewrite (proj2 (split_once_some c _ a' b') (conj eq_refl F')) in K. injection K as <- <-. auto.
Qed.
Lemma pieces_unique c s l l' : pieces c s l -> pieces c s l' -> l = l'.
Proof.
  revert s l'. induction l as [|p l IH]; intros s l' (H1 & H2 & H3) (K1 & K2 & K3); [now contradiction H1|].
  destruct l' as [|p' l']; [now contradiction K1|].
  inversion H3 as [|? ? Fp Fl]; inversion K3 as [|? ? Fp' Fl']; subst.
  destruct l as [|q l], l' as [|q' l'].
  - cbn [String.concat] in K2. now subst.
  - exfalso. rewrite concat_cons in K2. cbn [String.concat] in K2. exact (Fp _ _ K2).
  - exfalso. rewrite concat_cons in K2. cbn [String.concat] in K2. exact (Fp' _ _ (eq_sym K2)).
  - rewrite !concat_cons in K2. apply (free_cut c) in K2 as [-> K2]; [|assumption|assumption].
    f_equal. apply (IH (String.concat (String c "") (q :: l))).
    + repeat split; [discriminate|assumption].
    + repeat split; [discriminate|exact K2|assumption].
Qed.
Lemma split_on_iff c s l : pieces c s l <-> split_on c s = l.
Proof.
  split; [intro H; apply (pieces_unique c s); [apply split_on_ok|exact H]|intros <-; apply split_on_ok].
Qed.

Lemma blank_iff s : blank s <-> all_chars is_ws s = true.
Proof. unfold blank. now rewrite all_chars_iff. Qed.
Lemma blank_cons c s : blank (String c s) <-> is_ws c = true /\ blank s.
Proof. rewrite !blank_iff. cbn [all_chars]. now rewrite andb_true_iff. Qed.
Lemma trim_start_drop a t : blank a -> (forall c r, t = String c r -> is_ws c = false) -> trim_start (a ++ t)%string = t.
Proof.
  intros B H. induction a as [|c a IH]; cbn [append].
  - destruct t as [|d t]; [reflexivity|]. cbn [trim_start]. now rewrite (H d t eq_refl).
  - apply blank_cons in B as [W B]. cbn [trim_start]. rewrite W. auto.
Qed.
Lemma trim_end_blank b : blank b -> trim_end b = "".
Proof.
  induction b as [|c b IH]; [reflexivity|]. intro B. apply blank_cons in B as [W B]. cbn [trim_end]. now rewrite (IH B), W.
Qed.
Lemma trim_end_drop t b : blank b -> (forall c r, t = (r ++ String c "")%string -> is_ws c = false) -> trim_end (t ++ b)%string = t.
Proof.
  intros B. induction t as [|c t IH]; intro H; cbn [append]; [now apply trim_end_blank|].
  cbn [trim_end]. destruct t as [|d t].
  - cbn [append]. rewrite (trim_end_blank b B). now rewrite (H c "" eq_refl).
  - rewrite IH; [reflexivity|]. intros x r E. apply (H x (String c r)). cbn [append]. now rewrite E.
Qed.
Lemma trim_start_split s : exists a, s = (a ++ trim_start s)%string /\ blank a /\ (forall c r, trim_start s = String c r -> is_ws c = false).
Proof.
  induction s as [|c s (a & H1 & H2 & H3)]; cbn [trim_start].
  - exists "". split; [reflexivity|]. split; [now apply blank_iff|]. discriminate.
  - destruct (is_ws c) eqn:W.
    + exists (String c a). cbn [append]. rewrite <- H1. split; [reflexivity|]. split; [now apply blank_cons|exact H3].
    + exists "". split; [reflexivity|]. split; [now apply blank_iff|]. intros d r E. injection E as <- _. exact W.
Qed.
Lemma trim_end_split s : exists b, s = (trim_end s ++ b)%string /\ blank b /\ (forall c r, trim_end s = (r ++ String c "")%string -> is_ws c = false).
Proof.
  induction s as [|c s (b & H1 & H2 & H3)]; cbn [trim_end].
  - exists "". split; [reflexivity|]. split; [now apply blank_iff|]. intros c [|d r]; discriminate.
  - destruct (trim_end s) as [|d t] eqn:E.
    + destruct (is_ws c) eqn:W.
      * exists (String c s). split; [reflexivity|]. split; [apply blank_cons; split; [exact W|now rewrite H1]|]. intros x [|d r]; discriminate.
      * exists b. cbn [append] in *. split; [now rewrite H1|]. split; [exact H2|].
        intros x [|d r] K; cbn [append] in K; [now injection K as <-|]. injection K as _ K. destruct r; discriminate.
    + exists b. cbn [append] in *. split; [now rewrite H1|]. split; [exact H2|].
      intros x [|e r] K; cbn [append] in K; [discriminate|]. injection K as _ K. exact (H3 x r K).
Qed.
Lemma trim_iff s t : trimmed s t <-> trim s = t.
Proof.
  split.
  - intros (a & b & -> & Ba & Bb & H1 & H2). unfold trim.
    destruct t as [|c t].
    + cbn [append]. assert (E : trim_start (a ++ b)%string = "").
      { induction a as [|x a IH]; cbn [append].
        - clear H1 H2. induction b as [|y b IH]; [reflexivity|]. apply blank_cons in Bb as [W Bb]. cbn [trim_start]. rewrite W. auto.
        - apply blank_cons in Ba as [W Ba]. cbn [trim_start]. rewrite W. auto. }
      now rewrite E.
    + rewrite trim_start_drop; [now apply trim_end_drop|exact Ba|]. intros d r E. cbn [append] in E. injection E as <- _. exact (H1 c t eq_refl).
  - intros <-. destruct (trim_start_split s) as (a & E & Ba & H1). destruct (trim_end_split (trim_start s)) as (b & E' & Bb & H2).
    exists a, b. unfold trim. rewrite <- E', <- E. repeat split; auto.
    intros c r K. apply (H1 c (r ++ b)%string). rewrite E', K. reflexivity.
Qed.

Lemma length_app (a b : string) : String.length (a ++ b) = String.length a + String.length b.
Proof. induction a; cbn [append String.length]; [reflexivity|]. rewrite IHa. reflexivity. Qed.
Lemma get_last a c : String.get (String.length a) (a ++ String c "") = Some c.
Proof. induction a; cbn; auto. Qed.
Lemma substring_app a b : String.substring 0 (String.length a) (a ++ b) = a.
Proof. induction a; cbn [append String.length substring]; [destruct b; reflexivity|]. now rewrite IHa. Qed.
Lemma trim_quotes_quoted s t : quoted s t -> trim_quotes s = t.
Proof.
  unfold quoted. intros ->. unfold trim_quotes. cbn [String.length]. rewrite length_app. cbn [String.length].
  replace (Nat.ltb (S (String.length t + 1)) 2) with false by (symmetry; apply PeanoNat.Nat.ltb_ge; lia).
  replace (S (String.length t + 1) - 1) with (S (String.length t)) by lia.
  replace (S (String.length t + 1) - 2) with (String.length t) by lia.
  cbn [String.get String.substring]. rewrite get_last. unfold quote. rewrite Ascii.eqb_refl. cbn [andb].
  apply substring_app.
Qed.
Lemma last_split (s : string) : s <> "" -> exists t c, s = (t ++ String c "")%string.
Proof.
  induction s as [|c s IH]; [congruence|]. intros _. destruct s as [|d s].
  - exists "", c. reflexivity.
  - destruct IH as (t & x & E); [discriminate|]. exists (String c t), x. cbn [append]. now rewrite <- E.
Qed.
Lemma trim_quotes_not s : (forall u, ~ quoted s u) -> trim_quotes s = s.
Proof.
  intro H. unfold trim_quotes. destruct (Nat.ltb (String.length s) 2) eqn:L; [reflexivity|].
  apply PeanoNat.Nat.ltb_ge in L.
  destruct s as [|c s]; [reflexivity|]. cbn [String.length] in *. destruct (last_split s) as (t & d & ->).
  { intros ->. cbn in L. lia. }
  replace (S (String.length (t ++ String d "")) - 1) with (S (String.length t)) by (rewrite length_app; cbn; lia).
  cbn [String.get]. rewrite get_last. unfold quote.
  destruct (Ascii.eqb_spec c "034") as [->|N]; [|reflexivity].
  destruct (Ascii.eqb_spec d "034") as [->|N]; [|reflexivity].
  exfalso. apply (H t). reflexivity.
Qed.
Lemma quoted_dec s : (exists u, quoted s u) \/ (forall u, ~ quoted s u).
Proof.
  unfold quoted. destruct s as [|c s]; [right; discriminate|].
  destruct (Ascii.ascii_dec c "034") as [->|N]; [|right; intros u E; injection E as E _; auto].
  destruct s as [|d s]; [right; intros [|x u] E; discriminate|].
  destruct (last_split (String d s)) as (t & x & E); [discriminate|].
  destruct (Ascii.ascii_dec x "034") as [->|N]; [left; exists t; now rewrite E|].
  right. intros u K. injection K as K. rewrite E in K. apply N. clear E.
  revert u K. induction t as [|y t IH]; intros [|z u] K; cbn [append] in K.
  - now injection K.
  - injection K as _ K. destruct u; discriminate.
  - injection K as _ K. destruct t; discriminate.
  - injection K as _ K. eauto.
Qed.
Lemma unquoted_iff s t : unquoted s t <-> trim_quotes s = t.
Proof.
  split.
  - intros [Q|[-> Q]]; [now apply trim_quotes_quoted|now apply trim_quotes_not].
  - intros <-. destruct (quoted_dec s) as [[u Q]|Q].
    + left. rewrite (trim_quotes_quoted s u Q). exact Q.
    + right. split; [now apply trim_quotes_not|exact Q].
Qed.

Lemma text_iff v : to_str v = Some v <-> text v.
Proof.
  unfold to_str, text. destruct (all_chars visible v) eqn:E.
  - split; [intros _|reflexivity]. intros a c b K. pose proof (proj1 (all_chars_iff visible v) E a c b K) as V.
    unfold visible in V. apply orb_true_iff in V as [V|V].
    + apply andb_true_iff in V as [V1 V2]. apply N.leb_le in V1. apply N.ltb_lt in V2. left. lia.
    + apply N.eqb_eq in V. auto.
  - split; [discriminate|]. intro H. exfalso. enough (all_chars visible v = true) by congruence.
    apply all_chars_iff. intros a c b K. unfold visible. apply orb_true_iff. destruct (H a c b K) as [V|V].
    + left. apply andb_true_iff. rewrite N.leb_le, N.ltb_lt. lia.
    + right. now apply N.eqb_eq.
Qed.
Lemma to_str_cases v : (to_str v = Some v /\ text v) \/ (to_str v = None /\ ~ text v).
Proof.
  rewrite <- text_iff. unfold to_str. destruct (all_chars visible v); [left; auto|right; split; [reflexivity|discriminate]].
Qed.
Lemma strip_prefix_iff p s r : strip_prefix p s = Some r <-> s = (p ++ r)%string.
Proof.
  revert s. induction p as [|a p IH]; intros s; cbn [strip_prefix append].
  - split; [intro E; now injection E|now intros ->].
  - destruct s as [|b s]; [split; discriminate|]. destruct (Ascii.eqb_spec a b) as [<-|N].
    + rewrite IH. split; [now intros ->|intro E; now injection E].
    + split; [discriminate|]. intro E. injection E as E _. congruence.
Qed.
Lemma header_get_some n h v : header_get n h = Some v <-> first_header n h v.
Proof.
  unfold first_header. induction h as [|[k w] h IH]; cbn [header_get].
  - split; [discriminate|]. intros (a & k & b & E & _). destruct a; discriminate.
  - destruct (String.eqb_spec (lower k) (lower n)) as [E|N].
    + split.
      * intro K. injection K as <-. exists [], k, h. auto.
      * intros (a & k' & b & K & E' & F). destruct a as [|x a]; cbn [app] in K.
        -- injection K as _ K2 _. now rewrite K2.
        -- injection K as K1 K2. inversion F as [|? ? F1 F2]; subst. now contradiction F1.
    + rewrite IH. split.
      * intros (a & k' & b & -> & E' & F). exists ((k, w) :: a), k', b. repeat split; [exact E'|]. now constructor.
      * intros (a & k' & b & K & E' & F). destruct a as [|x a]; cbn [app] in K.
        -- injection K as K1 _ _. subst. now contradiction N.
        -- injection K as K1 K2. inversion F; subst. exists a, k', b. auto.
Qed.
Lemma header_get_none n h : header_get n h = None <-> no_header n h.
Proof.
  unfold no_header. induction h as [|[k w] h IH]; cbn [header_get]; [split; [constructor|reflexivity]|].
  destruct (String.eqb_spec (lower k) (lower n)) as [E|N].
  - split; [discriminate|]. intro F. inversion F as [|? ? F1]; subst. now contradiction F1.
  - rewrite IH. split; [intro F; now constructor|intro F; now inversion F].
Qed.
Lemma parse_cookie_iff i n t : parse_cookie i = Some (n, t) <-> gives i n t.
Proof.
  unfold parse_cookie, gives. destruct (split_once "=" i) as [[a b]|] eqn:E.
  - pose proof (proj1 (split_once_some "=" i a b) E) as [-> F]. destruct (String.eqb_spec (trim a) "") as [Z|Z].
    + split; [discriminate|]. intros (a' & b' & v & K & F' & T & N & _). exfalso.
      apply (free_cut "=") in K as [-> ->]; [|assumption|assumption]. apply trim_iff in T. congruence.
    + split.
      * intro K. injection K as <- <-. exists a, b, (trim b). repeat split; auto; [now apply trim_iff|now apply trim_iff|now apply unquoted_iff].
      * intros (a' & b' & v & K & F' & T & N & T2 & U). apply (free_cut "=") in K as [-> ->]; [|assumption|assumption].
        apply trim_iff in T, T2. apply unquoted_iff in U. now subst.
  - split; [discriminate|]. intros (a & b & v & -> & _). exfalso. now apply (proj1 (split_once_no _ _) E a b).
Qed.
Lemma find_cookie_some n l t : find_cookie n l = Some t <->
  exists a i b, l = a ++ i :: b /\ gives i n t /\ Forall (fun j => forall u, ~ gives j n u) a.
Proof.
  induction l as [|i l IH]; cbn [find_cookie].
  - split; [discriminate|]. intros (a & i & b & E & _). destruct a; discriminate.
  - assert (R : (forall u, ~ gives i n u) -> (find_cookie n l = Some t <->
      exists a j b, i :: l = a ++ j :: b /\ gives j n t /\ Forall (fun j => forall u, ~ gives j n u) a)).
    { intro G. rewrite IH. split.
      - intros (a & j & b & -> & K & F). exists (i :: a), j, b. repeat split; [exact K|]. now constructor.
      - intros (a & j & b & E & K & F). destruct a as [|x a]; injection E as -> E; subst; [now apply G in K|].
        inversion F; subst. exists a, j, b. auto. }
    destruct (parse_cookie i) as [[k v]|] eqn:P.
    + destruct (String.eqb_spec k n) as [->|N].
      * split.
        -- intro E. injection E as <-. exists [], i, l. repeat split; [now apply parse_cookie_iff|constructor].
        -- intros (a & j & b & E & K & F). destruct a as [|x a]; injection E as -> E; subst.
           ++ apply parse_cookie_iff in K. rewrite K in P. now injection P as ->.
           ++ inversion F as [|? ? F1 F2]; subst. apply parse_cookie_iff in P. now apply F1 in P.
      * apply R. intros u G. apply parse_cookie_iff in G. rewrite G in P. injection P as -> _. auto.
    + apply R. intros u G. apply parse_cookie_iff in G. congruence.
Qed.
Lemma find_cookie_none n l : find_cookie n l = None <-> Forall (fun j => forall u, ~ gives j n u) l.
Proof.
  destruct (find_cookie n l) as [t|] eqn:E.
  - split; [discriminate|]. apply find_cookie_some in E as (a & i & b & -> & G & _). intro F.
    apply Forall_app in F as [_ F]. inversion F as [|? ? F1 F2]; subst. now apply F1 in G.
  - split; [intros _|reflexivity]. revert E. induction l as [|i l IH]; cbn [find_cookie]; [constructor|].
    destruct (parse_cookie i) as [[k v]|] eqn:P.
    + destruct (String.eqb_spec k n) as [->|N]; [discriminate|]. intro E. constructor; [|auto].
      intros u G. apply parse_cookie_iff in G. rewrite G in P. injection P as -> _. auto.
    + intro E. constructor; [|auto]. intros u G. apply parse_cookie_iff in G. congruence.
Qed.

Definition verdict (h : headers) (l : location) : option (result (option string * string) lookup_error) :=
  match lookup [l] h with Err LookupNotFound => None | r => Some r end.
Lemma lookup_verdict l ls h : lookup (l :: ls) h = match verdict h l with Some r => r | None => lookup ls h end.
Proof.
  unfold verdict. destruct l as [n p|n]; cbn [lookup].
  - destruct (header_get n h) as [v|]; [|reflexivity]. destruct (to_str v) as [s|]; [|reflexivity].
    destruct p as [p|]; [|reflexivity]. destruct (strip_prefix p s); reflexivity.
  - destruct (header_get "cookie" h) as [v|]; [|reflexivity]. destruct (to_str v) as [s|]; [|reflexivity].
    destruct (find_cookie n (split_on ";" s)); reflexivity.
Qed.
Lemma verdict_ok h l : match verdict h l with
                       | Some (Ok (p, t)) => holds h l p t
                       | Some (Err e) => spoils h l e
                       | None => silent h l
                       end.
Proof.
  unfold verdict. destruct l as [n p|n]; cbn [lookup].
  - destruct (header_get n h) as [v|] eqn:G; [apply header_get_some in G|apply header_get_none in G; now constructor].
    destruct (to_str_cases v) as [[-> T]|[-> T]]; [|now apply (spoils_text h n p v)].
    destruct p as [p|]; [|now constructor].
    destruct (strip_prefix p v) as [r|] eqn:S.
    + apply strip_prefix_iff in S. apply (holds_prefix h n p v r); auto. now apply trim_iff.
    + apply (spoils_prefix h n p v); auto. intros r E. apply strip_prefix_iff in E. congruence.
  - destruct (header_get "cookie" h) as [v|] eqn:G; [apply header_get_some in G|apply header_get_none in G; now apply silent_no_cookie].
    destruct (to_str_cases v) as [[-> T]|[-> T]]; [|now apply (silent_text h n v)].
    destruct (find_cookie n (split_on ";" v)) as [t|] eqn:F.
    + apply find_cookie_some in F as (a & i & b & E & K & F). apply (holds_cookie h n v a i b); auto. now apply split_on_iff.
    + apply find_cookie_none in F. apply (silent_cookie h n v (split_on ";" v)); auto. apply split_on_ok.
Qed.
Lemma first_header_unique n h v w : first_header n h v -> first_header n h w -> v = w.
Proof. rewrite <- !header_get_some. congruence. Qed.
Lemma first_not_no n h v : first_header n h v -> ~ no_header n h.
Proof. rewrite <- header_get_some, <- header_get_none. congruence. Qed.
Lemma holds_verdict h l p t : holds h l p t -> verdict h l = Some (Ok (p, t)).
Proof.
  unfold verdict. intros [n v F T|n q v r u F T E U|n v a i b u F T P G A]; cbn [lookup]; rewrite (proj2 (header_get_some _ _ _) F), (proj2 (text_iff v) T).
  - reflexivity.
  - rewrite (proj2 (strip_prefix_iff q v r) E). apply trim_iff in U. now rewrite U.
  - apply split_on_iff in P. rewrite P. now rewrite (proj2 (find_cookie_some n (a ++ i :: b) u) (ex_intro _ a (ex_intro _ i (ex_intro _ b (conj eq_refl (conj G A)))))).
Qed.
Lemma spoils_verdict h l e : spoils h l e -> verdict h l = Some (Err e).
Proof.
  unfold verdict. intros [n p v F T|n p v F T N]; cbn [lookup]; rewrite (proj2 (header_get_some _ _ _) F).
  - destruct (to_str_cases v) as [[_ K]|[-> _]]; [now contradiction T|reflexivity].
  - rewrite (proj2 (text_iff v) T). destruct (strip_prefix p v) as [r|] eqn:S; [|reflexivity].
    apply strip_prefix_iff in S. now apply N in S.
Qed.
Lemma silent_verdict h l : silent h l -> verdict h l = None.
Proof.
  unfold verdict. intros [n p F|n F|n v F T|n v l' F T P A]; cbn [lookup].
  - now rewrite (proj2 (header_get_none _ _) F).
  - now rewrite (proj2 (header_get_none _ _) F).
  - rewrite (proj2 (header_get_some _ _ _) F). destruct (to_str_cases v) as [[_ K]|[-> _]]; [now contradiction T|reflexivity].
  - rewrite (proj2 (header_get_some _ _ _) F), (proj2 (text_iff v) T). apply split_on_iff in P. rewrite P.
    now rewrite (proj2 (find_cookie_none _ _) A).
Qed.
Lemma lookup_skip h a ls : Forall (silent h) a -> lookup (a ++ ls) h = lookup ls h.
Proof.
  induction 1 as [|l a S _ IH]; [reflexivity|]. cbn [app]. now rewrite lookup_verdict, (silent_verdict h l S).
Qed.
Lemma lookup_found ls h r : found ls h r <-> lookup ls h = r.
Proof.
  split.
  - intros [(a & l & b & p & t & -> & S & H & ->)|[(a & l & b & e & -> & S & H & ->)|(S & ->)]].
    + now rewrite lookup_skip, lookup_verdict, (holds_verdict _ _ _ _ H).
    + now rewrite lookup_skip, lookup_verdict, (spoils_verdict _ _ _ H).
    + rewrite <- (app_nil_r ls), lookup_skip by exact S. reflexivity.
  - intros <-. induction ls as [|l ls IH]; [right; right; split; [constructor|reflexivity]|].
    rewrite lookup_verdict. pose proof (verdict_ok h l) as V. destruct (verdict h l) as [[[p t]|e]|].
    + left. exists [], l, ls, p, t. repeat split; auto.
    + right; left. exists [], l, ls, e. repeat split; auto.
    + destruct IH as [(a & x & b & p & t & -> & S & H & E)|[(a & x & b & e & -> & S & H & E)|(S & E)]].
      * left. exists (l :: a), x, b, p, t. repeat split; auto.
      * right; left. exists (l :: a), x, b, e. repeat split; auto.
      * right; right. split; [now constructor|exact E].
Qed.
