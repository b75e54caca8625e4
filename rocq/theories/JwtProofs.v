From Coq Require Import String Ascii List NArith Bool Lia ZifyN.
From Verif Require Import StrUtil JwtModel JwtSpec JwtText.
Import ListNotations.
Local Open Scope string_scope.
Local Open Scope list_scope.

Lemma alg_eqb_ok a b : alg_eqb a b = true <-> a = b.
Proof. destruct a, b; split; intro H; try reflexivity; discriminate. Qed.
Lemma alg_eqb_refl a : alg_eqb a a = true.
Proof. now apply alg_eqb_ok. Qed.
Lemma mem_ok x l : mem x l = true <-> In x l.
Proof.
  unfold mem. rewrite existsb_exists. split; [intros (y & H & E); apply String.eqb_eq in E; now subst|].
  intro H. exists x. split; [exact H|apply String.eqb_refl].
Qed.

(** * The set of keys picked *)
Lemma has_kid_ok kid s : has_kid kid s = true <-> with_kid kid s.
Proof.
  unfold has_kid, with_kid. rewrite existsb_exists. split.
  - intros (k & H & E). exists k. split; [exact H|]. destruct (k_id k) as [v|]; [|discriminate]. apply String.eqb_eq in E. now subst.
  - intros (k & H & E). exists k. rewrite E. split; [exact H|apply String.eqb_refl].
Qed.
Lemma by_kid_none kid sets : by_kid kid sets = None <-> Forall (fun s => ~ with_kid kid s) sets.
Proof.
  induction sets as [|s sets IH]; cbn [by_kid]; [split; [constructor|reflexivity]|].
  destruct (has_kid kid s) eqn:E.
  - split; [discriminate|]. intro F. inversion F as [|? ? F1 F2]; subst. apply has_kid_ok in E. now apply F1 in E.
  - rewrite IH. split; [intro F; constructor; [|exact F]|intro F; now inversion F].
    intro K. apply has_kid_ok in K. congruence.
Qed.
Lemma by_kid_some kid a s b : with_kid kid s -> Forall (fun s => ~ with_kid kid s) a -> by_kid kid (a ++ s :: b) = Some s.
Proof.
  intros W F. induction F as [|x a X _ IH]; cbn [app by_kid].
  - now rewrite (proj2 (has_kid_ok kid s) W).
  - destruct (has_kid kid x) eqn:E; [apply has_kid_ok in E; now apply X in E|exact IH].
Qed.
Lemma by_kid_in kid sets s : by_kid kid sets = Some s -> In s sets.
Proof.
  induction sets as [|x sets IH]; cbn [by_kid]; [discriminate|]. destruct (has_kid kid x); [intro E; injection E as ->; now left|right; auto].
Qed.
Lemma by_alg_in a sets s : by_alg a sets = Ok s -> In s sets.
Proof.
  induction sets as [|x sets IH]; cbn [by_alg]; [discriminate|]. destruct (set_by_alg a x) as [[|]|]; [intro E; injection E as ->; now left|right; auto|discriminate].
Qed.
Lemma find_matching_in h sets s : find_matching h sets = Ok s -> In s sets.
Proof.
  unfold find_matching. destruct (h_kid h) as [kid|]; [|apply by_alg_in].
  destruct (by_kid kid sets) eqn:E; [|apply by_alg_in]. intro K. injection K as ->. now apply by_kid_in in E.
Qed.
Lemma set_by_alg_true a u k v : k_alg k = Some (Signs a) -> only_signing u -> set_by_alg a (u ++ k :: v) = Ok true.
Proof.
  intros K F. induction u as [|x u IH]; cbn [app set_by_alg].
  - rewrite K, alg_eqb_refl. reflexivity.
  - destruct (k_alg x) as [[b|n]|] eqn:E.
    + destruct (alg_eqb b a); [reflexivity|]. apply IH. intros y n Hy. apply F. now right.
    + exfalso. apply (F x n); [now left|exact E].
    + apply IH. intros y n Hy. apply F. now right.
Qed.
Lemma set_by_alg_false a s : only_signing s -> ~ with_alg a s -> set_by_alg a s = Ok false.
Proof.
  intros F N. induction s as [|x s IH]; [reflexivity|]. cbn [set_by_alg].
  assert (F' : only_signing s) by (intros y n Hy; apply F; now right).
  assert (N' : ~ with_alg a s) by (intros (y & Hy & E); apply N; exists y; split; [now right|exact E]).
  destruct (k_alg x) as [[b|n]|] eqn:E.
  - destruct (alg_eqb b a) eqn:Q; [|auto]. exfalso. apply alg_eqb_ok in Q. subst. apply N. exists x. split; [now left|exact E].
  - exfalso. apply (F x n); [now left|exact E].
  - auto.
Qed.
Lemma picked_ok sets h s : picked sets h s -> find_matching h sets = Ok s.
Proof.
  unfold find_matching. intros [a b kid E -> W F|a b K -> W F O (u & k & v & -> & Hk & Hu)].
  - rewrite E, by_kid_some by assumption. reflexivity.
  - assert (R : by_alg (h_alg h) (a ++ (u ++ k :: v) :: b) = Ok (u ++ k :: v)).
    { clear K W. induction a as [|x a IH]; cbn [app by_alg].
      - now rewrite set_by_alg_true.
      - inversion F; inversion O; subst. rewrite set_by_alg_false by assumption. now apply IH. }
    destruct (h_kid h) as [kid|] eqn:E; [|exact R].
    specialize (K kid eq_refl). apply by_kid_none in K. now rewrite K.
Qed.
Lemma set_by_alg_witness a s : set_by_alg a s = Ok true -> exists u k v, s = u ++ k :: v /\ k_alg k = Some (Signs a) /\ only_signing u.
Proof.
  induction s as [|x s IH]; cbn [set_by_alg]; [discriminate|].
  destruct (k_alg x) as [[b|n]|] eqn:E; [destruct (alg_eqb b a) eqn:Q| |].
  - intros _. apply alg_eqb_ok in Q. subst. exists [], x, s. repeat split; auto. intros y n [].
  - intro H. destruct (IH H) as (u & k & v & -> & Hk & Hu). exists (x :: u), k, v. repeat split; auto.
    intros y n [<-|Hy]; [rewrite E; discriminate|now apply Hu].
  - discriminate.
  - intro H. destruct (IH H) as (u & k & v & -> & Hk & Hu). exists (x :: u), k, v. repeat split; auto.
    intros y n [<-|Hy]; [rewrite E; discriminate|now apply Hu].
Qed.
Lemma set_by_alg_nothing a s : set_by_alg a s = Ok false -> only_signing s /\ ~ with_alg a s.
Proof.
  induction s as [|x s IH]; cbn [set_by_alg].
  - intros _. split; [intros y n []|intros (y & [] & _)].
  - destruct (k_alg x) as [[b|n]|] eqn:E; [destruct (alg_eqb b a) eqn:Q| |]; try discriminate.
    + intro H. destruct (IH H) as [I1 I2]. split.
      * intros y n [<-|Hy]; [rewrite E; discriminate|now apply I1].
      * intros (y & [<-|Hy] & K); [|apply I2; exists y; auto]. rewrite E in K. injection K as ->. now rewrite alg_eqb_refl in Q.
    + intro H. destruct (IH H) as [I1 I2]. split.
      * intros y n [<-|Hy]; [rewrite E; discriminate|now apply I1].
      * intros (y & [<-|Hy] & K); [|apply I2; exists y; auto]. congruence.
Qed.
Lemma found_picked sets h s : find_matching h sets = Ok s -> picked sets h s.
Proof.
  assert (R : by_alg (h_alg h) sets = Ok s -> (forall kid, h_kid h = Some kid -> Forall (fun s => ~ with_kid kid s) sets) -> picked sets h s).
  { intros B K. assert (X : exists a b, sets = a ++ s :: b /\ Forall (fun s => ~ with_alg (h_alg h) s) a /\ Forall only_signing a /\ set_by_alg (h_alg h) s = Ok true).
    { clear K. induction sets as [|x sets IH]; cbn [by_alg] in B; [discriminate|].
      destruct (set_by_alg (h_alg h) x) as [[|]|] eqn:Q; [| |discriminate].
      - injection B as ->. exists [], sets. repeat split; auto.
      - destruct (IH B) as (a & b & -> & H1 & H2 & H3). apply set_by_alg_nothing in Q as [Q1 Q2].
        exists (x :: a), b. repeat split; auto. }
    destruct X as (a & b & -> & H1 & H2 & H3). pose proof (set_by_alg_witness _ _ H3) as (u & k & v & E & Hk & Hu).
    apply (picked_alg _ _ _ a b); auto.
    - exists k. split; [rewrite E; apply in_or_app; right; now left|exact Hk].
    - exists u, k, v. auto. }
  unfold find_matching. destruct (h_kid h) as [kid|] eqn:E.
  - destruct (by_kid kid sets) as [x|] eqn:B.
    + intro K. injection K as ->. assert (X : exists a b, sets = a ++ s :: b /\ with_kid kid s /\ Forall (fun s => ~ with_kid kid s) a).
      { clear R. induction sets as [|y sets IH]; cbn [by_kid] in B; [discriminate|]. destruct (has_kid kid y) eqn:Q.
        - injection B as ->. apply has_kid_ok in Q. exists [], sets. auto.
        - destruct (IH B) as (a & b & -> & H1 & H2). exists (y :: a), b. repeat split; auto. constructor; [|exact H2].
          intro W. apply has_kid_ok in W. congruence. }
      destruct X as (a & b & H1 & H2 & H3). now apply (picked_kid _ _ _ a b kid).
    + intro K. apply R; [exact K|]. intros kid' Q. injection Q as <-. now apply by_kid_none.
  - intro K. apply R; [exact K|]. discriminate.
Qed.

(** * Sources *)
Lemma all_sets_readable l : readable l (all_sets l).
Proof.
  induction l as [|[[s|] [|]] l IH]; cbn [all_sets s_set s_locked]; constructor; exact IH.
Qed.
Lemma readable_unique l r r' : readable l r -> readable l r' -> r = r'.
Proof.
  intro H. revert r'. induction H as [|s l r H IH|b l r H IH|o l r H IH]; intros r' K; inversion K; subst; auto; f_equal; auto.
Qed.
Lemma readable_in l r set : readable l r -> In set r -> exists s, In s l /\ s_set s = Some set /\ s_locked s = false.
Proof.
  induction 1 as [|s l r H IH|b l r H IH|o l r H IH]; intro K.
  - destruct K.
  - destruct K as [->|K]; [exists (mksource (Some set) false); repeat split; now left|].
    destruct (IH K) as (x & X & Y). exists x. split; [now right|exact Y].
  - destruct (IH K) as (x & X & Y). exists x. split; [now right|exact Y].
  - destruct (IH K) as (x & X & Y). exists x. split; [now right|exact Y].
Qed.

Section Main.
  Variable cfg : config.
  Variable read_header : string -> option header.
  Variable usable : string -> bool.
  Variable fits : string -> alg -> bool.
  Variable signed : string -> alg -> string -> bool.
  Variable read_claims : string -> option claims.
  Notation try_decode := (try_decode cfg read_header usable fits signed read_claims).
  Notation first_ok := (first_ok cfg read_header usable fits signed read_claims).
  Notation authenticate := (authenticate cfg read_header usable fits signed read_claims).
  Notation validate_headers := (validate_headers cfg read_header usable fits signed read_claims).
  Notation run := (run cfg read_header usable fits signed read_claims).
  Notation step := (step cfg read_header usable fits signed read_claims).
  Notation answer := (answer cfg read_header usable fits signed read_claims).
  Notation verifies := (verifies cfg read_header usable fits signed).
  Notation acceptable := (acceptable cfg read_claims).
  Notation checked := (checked cfg read_header usable fits signed read_claims).

  Lemma allowed_ok a : (match g_algorithms cfg with Some l => negb (existsb (alg_eqb a) l) | None => false end) = false <-> among (g_algorithms cfg) a.
  Proof.
    unfold among. destruct (g_algorithms cfg) as [l|].
    - rewrite negb_false_iff, existsb_exists. split.
      + intros (b & H & E) m K. injection K as <-. apply alg_eqb_ok in E. now subst.
      + intro H. exists a. split; [now apply H|apply alg_eqb_refl].
    - split; [intros _ m; discriminate|reflexivity].
  Qed.
  Lemma claims_ok now c :
    (validate cfg now c = true /\
     (match g_issuers cfg, c_iss c with Some l, Some i => negb (mem i l) | Some _, None => true | None, _ => false end) = false /\
     (match g_audiences cfg, c_aud c with
      | Some l, Some (Single a) => negb (mem a l)
      | Some l, Some (Multiple m) => negb (forallb (fun a => mem a l) m)
      | Some _, None => true
      | None, _ => false
      end) = false) <->
    (exists e, c_exp c = Some e /\ (now <= e + 60)%N) /\ issuer_ok cfg c /\ audience_ok cfg c.
  Proof.
    unfold validate, issuer_ok, audience_ok, among. rewrite !andb_true_iff.
    assert (X : (match c_exp c with None => false | Some exp => negb (exp <? now - 60)%N end) = true <-> (exists e, c_exp c = Some e /\ (now <= e + 60)%N)).
    { destruct (c_exp c) as [e|].
      - rewrite negb_true_iff, N.ltb_ge. split; [intro H; exists e; split; [reflexivity|lia]|intros (e' & E & H); injection E as <-; lia].
      - split; [discriminate|]. intros (e & E & _). discriminate. }
    rewrite X. clear X.
    assert (I1 : (match g_issuers cfg, c_iss c with Some l, Some i => mem i l | _, _ => true end) = true /\
                 (match g_issuers cfg, c_iss c with Some l, Some i => negb (mem i l) | Some _, None => true | None, _ => false end) = false <->
                 (g_issuers cfg <> None -> exists i, c_iss c = Some i /\ forall m, g_issuers cfg = Some m -> In i m)).
    { destruct (g_issuers cfg) as [l|].
      - destruct (c_iss c) as [i|].
        + rewrite negb_false_iff, mem_ok. split.
          * intros [H _] _. exists i. split; [reflexivity|]. intros m E. now injection E as <-.
          * intro H. destruct H as (j & E & H); [discriminate|]. injection E as <-. specialize (H l eq_refl). auto.
        + split; [intros [_ H]; discriminate|]. intro H. destruct H as (j & E & H); [discriminate|]. discriminate.
      - split; [intros _ H; congruence|]. destruct (c_iss c); auto. }
    assert (A1 : (match g_audiences cfg, c_aud c with Some l, Some (Single a) => mem a l | Some l, Some (Multiple m) => existsb (fun a => mem a l) m | _, _ => true end) = true /\
                 (match g_audiences cfg, c_aud c with
                  | Some l, Some (Single a) => negb (mem a l)
                  | Some l, Some (Multiple m) => negb (forallb (fun a => mem a l) m)
                  | Some _, None => true
                  | None, _ => false
                  end) = false <->
                 (g_audiences cfg <> None ->
                   (exists a, c_aud c = Some (Single a) /\ forall m, g_audiences cfg = Some m -> In a m) \/
                   (exists l, c_aud c = Some (Multiple l) /\ l <> [] /\ Forall (fun x => forall m, g_audiences cfg = Some m -> In x m) l))).
    { destruct (g_audiences cfg) as [l|].
      - destruct (c_aud c) as [[a|m]|].
        + rewrite negb_false_iff, mem_ok. split.
          * intros [H _] _. left. exists a. split; [reflexivity|]. intros m E. now injection E as <-.
          * intro H. destruct H as [(b & E & H)|(b & E & H)]; [discriminate| |discriminate]. injection E as <-. specialize (H l eq_refl). auto.
        + rewrite negb_false_iff, existsb_exists, forallb_forall. split.
          * intros [(x & Hx & _) H] _. right. exists m. split; [reflexivity|]. split; [intros ->; destruct Hx|].
            apply Forall_forall. intros y Hy k E. injection E as <-. apply mem_ok. now apply H.
          * intro H. destruct H as [(b & E & H)|(b & E & N & H)]; [discriminate|discriminate|]. injection E as <-.
            rewrite Forall_forall in H. assert (H' : forall x, In x m -> mem x l = true) by (intros x Hx; apply mem_ok; now apply (H x Hx)).
            split; [|exact H']. destruct m as [|y m]; [now contradiction N|]. exists y. split; [now left|]. apply H'. now left.
        + split; [intros [_ H]; discriminate|]. intro H. destruct H as [(b & E & H)|(b & E & H)]; discriminate.
      - split; [intros _ H; congruence|]. destruct (c_aud c) as [[a|m]|]; auto. }
    rewrite <- I1, <- A1. tauto.
  Qed.

  Lemma try_decode_ok now h token k c : read_header token = Some h ->
    (try_decode now h token k = Ok c <-> verifies k token /\ acceptable now token c).
  Proof.
    intro Hh. unfold JwtModel.try_decode, JwtSpec.verifies, JwtSpec.acceptable.
    destruct (usable (k_material k)) eqn:U; cbn [negb].
    2: { split; [discriminate|]. intros [(h' & _ & U' & _) _]. congruence. }
    assert (D : forall a, (decode cfg read_header fits signed read_claims now token (k_material k) a = Some c <->
      fits (k_material k) a = true /\ h_alg h = a /\ signed (k_material k) (h_alg h) token = true /\ read_claims token = Some c /\ validate cfg now c = true)).
    { intro a. unfold decode. rewrite Hh. destruct (fits (k_material k) a); cbn [negb].
      2: { split; [discriminate|]. intros [H _]. discriminate. }
      destruct (alg_eqb (h_alg h) a) eqn:Q; cbn [negb].
      2: { split; [discriminate|]. intros (_ & H & _). subst. now rewrite alg_eqb_refl in Q. }
      apply alg_eqb_ok in Q. destruct (signed (k_material k) (h_alg h) token); cbn [negb].
      2: { split; [discriminate|]. intros (_ & _ & H & _). discriminate. }
      destruct (read_claims token) as [c'|].
      2: { split; [discriminate|]. intros (_ & _ & _ & H & _). discriminate. }
      destruct (validate cfg now c') eqn:V.
      - split; [intro E; injection E as ->; auto|]. intros (_ & _ & _ & E & _). now injection E as ->.
      - split; [discriminate|]. intros (_ & _ & _ & E & W). injection E as ->. congruence. }
    assert (G : forall a, (if match g_algorithms cfg with Some l => negb (existsb (alg_eqb a) l) | None => false end then Err AlgorithmNotSupported
       else match decode cfg read_header fits signed read_claims now token (k_material k) a with
            | None => Err FailedToDecode
            | Some c =>
                if match g_issuers cfg, c_iss c with Some l, Some i => negb (mem i l) | Some _, None => true | None, _ => false end
                then Err FailedToDecode
                else if match g_audiences cfg, c_aud c with
                        | Some l, Some (Single a) => negb (mem a l)
                        | Some l, Some (Multiple m) => negb (forallb (fun a => mem a l) m)
                        | Some _, None => true
                        | None, _ => false
                        end
                then Err FailedToDecode
                else Ok c
            end) = Ok c <->
       among (g_algorithms cfg) a /\ fits (k_material k) a = true /\ h_alg h = a /\ signed (k_material k) (h_alg h) token = true /\
       read_claims token = Some c /\ ((exists e, c_exp c = Some e /\ (now <= e + 60)%N) /\ issuer_ok cfg c /\ audience_ok cfg c)).
    { intro a. rewrite <- allowed_ok, <- claims_ok.
      destruct (match g_algorithms cfg with Some l => negb (existsb (alg_eqb a) l) | None => false end).
      { split; [discriminate|]. intros [H _]. discriminate. }
      specialize (D a). destruct (decode cfg read_header fits signed read_claims now token (k_material k) a) as [c'|].
      - split.
        + intro E. assert (c' = c) as -> by (destruct (match g_issuers cfg, c_iss c' with Some l, Some i => negb (mem i l) | Some _, None => true | None, _ => false end); [discriminate|]; destruct (match g_audiences cfg, c_aud c' with Some l, Some (Single a) => negb (mem a l) | Some l, Some (Multiple m) => negb (forallb (fun a => mem a l) m) | Some _, None => true | None, _ => false end); [discriminate|]; now injection E).
          pose proof (proj1 D eq_refl) as (D1 & D2 & D3 & D4 & D5).
          destruct (match g_issuers cfg, c_iss c with Some l, Some i => negb (mem i l) | Some _, None => true | None, _ => false end); [discriminate|].
          destruct (match g_audiences cfg, c_aud c with Some l, Some (Single a) => negb (mem a l) | Some l, Some (Multiple m) => negb (forallb (fun a => mem a l) m) | Some _, None => true | None, _ => false end); [discriminate|].
          repeat split; auto.
        + intros (_ & D1 & D2 & D3 & D4 & D5 & D6 & D7).
          assert (K : Some c' = Some c) by (apply D; auto). injection K as ->. now rewrite D6, D7.
      - split; [discriminate|]. intros (_ & D1 & D2 & D3 & D4 & D5 & D6 & D7).
        assert (K : None = Some c) by (apply D; auto). discriminate. }
    destruct (k_alg k) as [[a|n]|] eqn:Ka.
    - rewrite G. clear G D. split.
      + intros (G1 & G2 & G3 & G4 & G5 & G6). subst a. split; [exists h; repeat split; auto|auto].
      + intros [(h' & E & _ & F & S & [K|K] & A) R]; [discriminate|]. rewrite E in Hh. injection Hh as ->.
        injection K as ->. tauto.
    - split; [discriminate|]. intros [(h' & E & _ & F & S & [K|K] & A) R]; discriminate.
    - rewrite G. clear G D. split.
      + intros (G1 & G2 & G3 & G4 & G5 & G6). split; [exists h; repeat split; auto|auto].
      + intros [(h' & E & _ & F & S & _ & A) R]. rewrite E in Hh. injection Hh as ->. tauto.
  Qed.

  Lemma first_ok_sound now h token keys c : read_header token = Some h -> first_ok now h token keys = Ok c ->
    exists k, In k keys /\ verifies k token /\ acceptable now token c.
  Proof.
    intro Hh. induction keys as [|k keys IH]; cbn [JwtModel.first_ok]; [discriminate|].
    destruct (try_decode now h token k) as [c'|e] eqn:T.
    - intro E. injection E as ->. exists k. split; [now left|]. now apply (try_decode_ok now h).
    - destruct (first_ok now h token keys) as [c'|es]; [|discriminate]. intro E. injection E as ->.
      destruct (IH eq_refl) as (x & X & Y). exists x. split; [now right|exact Y].
  Qed.
  Lemma first_ok_complete now h token keys k c : read_header token = Some h -> In k keys -> verifies k token -> acceptable now token c ->
    first_ok now h token keys = Ok c.
  Proof.
    intros Hh I V A. induction keys as [|x keys IH]; [destruct I|]. cbn [JwtModel.first_ok].
    destruct (try_decode now h token x) as [c'|e] eqn:T.
    - apply (try_decode_ok now h token x c' Hh) in T as [_ (E & _)]. destruct A as (E' & _). congruence.
    - destruct I as [->|I]; [|now rewrite (IH I)].
      rewrite (proj2 (try_decode_ok now h token k c Hh) (conj V A)) in T. discriminate.
  Qed.
  Lemma authenticate_ok now sets token c : authenticate now sets token = Ok c <->
    exists h set k, read_header token = Some h /\ picked sets h set /\ In k set /\ verifies k token /\ acceptable now token c.
  Proof.
    unfold JwtModel.authenticate. split.
    - destruct (read_header token) as [h|] eqn:Hh; [|discriminate]. destruct (find_matching h sets) as [keys|e] eqn:F; [|discriminate].
      destruct (first_ok now h token keys) as [c'|es] eqn:O; [|discriminate]. intro E. injection E as ->.
      apply (first_ok_sound now h token keys c Hh) in O as (k & K1 & K2 & K3). exists h, keys, k. repeat split; auto; [now apply found_picked|apply K3|apply K3|apply K3|apply K3].
    - intros (h & set & k & Hh & P & I & V & A). rewrite Hh, (picked_ok _ _ _ P).
      now rewrite (first_ok_complete now h token set k c Hh I V A).
  Qed.
  Lemma picked_in sets h set : picked sets h set -> In set sets.
  Proof. intros [a b kid _ -> _ _|a b _ -> _ _ _ _]; apply in_or_app; right; now left. Qed.

  (** * Histories *)
  Lemma run_snoc l e : run (l ++ [e]) = step (run l) e.
  Proof. unfold JwtModel.run. now rewrite fold_left_app. Qed.
  Lemma run_latest l : latest l (fst (run l)).
  Proof.
    induction l as [|e l IH] using rev_ind; [left; split; [intros m []|reflexivity]|].
    rewrite run_snoc. destruct e as [ms h|srcs|keep]; cbn [JwtModel.step fst].
    - destruct IH as [(N & ->)|(a & b & E & N)].
      + left. split; [|reflexivity]. intros m I. apply in_app_or in I as [I|[I|[]]]; [now apply (N m)|discriminate].
      + right. exists a, (b ++ [Request ms h]). rewrite E at 1. rewrite <- app_assoc. split; [reflexivity|].
        intros m I. apply in_app_or in I as [I|[I|[]]]; [now apply (N m)|discriminate].
    - right. exists l, []. split; [reflexivity|]. intros m [].
    - destruct IH as [(N & ->)|(a & b & E & N)].
      + left. split; [|reflexivity]. intros m I. apply in_app_or in I as [I|[I|[]]]; [now apply (N m)|discriminate].
      + right. exists a, (b ++ [Evict keep]). rewrite E at 1. rewrite <- app_assoc. split; [reflexivity|].
        intros m I. apply in_app_or in I as [I|[I|[]]]; [now apply (N m)|discriminate].
  Qed.
  Lemma latest_unique l s s' : latest l s -> latest l s' -> s = s'.
  Proof.
    intros [(N & ->)|(a & b & -> & N)] [(N' & ->)|(a' & b' & E & N')].
    - reflexivity.
    - exfalso. apply (N s'). rewrite E. apply in_or_app. right. now left.
    - exfalso. apply (N' s). apply in_or_app. right. now left.
    - assert (L : forall x y : list event, forall s s', rev x ++ Keys s :: y = rev x ++ Keys s' :: y -> s = s').
      { intros x y u v K. apply app_inv_head in K. now injection K. }
      clear L. revert b' E N'. induction b as [|e b IH] using rev_ind; intros b' E N'.
      + destruct (exists_last (l := a' ++ Keys s' :: b')) as (p & q & Q); [now destruct a'|].
        destruct b' as [|e' b'] using rev_ind; [|clear IHb'].
        * apply app_inj_tail in E as [_ E]. now injection E.
        * exfalso. change (a' ++ Keys s' :: b' ++ [e']) with (a' ++ (Keys s' :: b') ++ [e']) in E. rewrite app_assoc in E.
          apply app_inj_tail in E as [_ E]. subst e'. apply (N' s). apply in_or_app. right. now left.
      + destruct b' as [|e' b'] using rev_ind; [|clear IHb'].
        * exfalso. change (a ++ Keys s :: b ++ [e]) with (a ++ (Keys s :: b) ++ [e]) in E. rewrite app_assoc in E.
          apply app_inj_tail in E as [_ E]. subst e. apply (N s'). apply in_or_app. right. now left.
        * change (a ++ Keys s :: b ++ [e]) with (a ++ (Keys s :: b) ++ [e]) in E. change (a' ++ Keys s' :: b' ++ [e']) with (a' ++ (Keys s' :: b') ++ [e']) in E.
          rewrite !app_assoc in E. apply app_inj_tail in E as [E _]. apply (IH) with (b' := b'); auto.
          -- intros m I. apply (N m). apply in_or_app. now left.
          -- intros m I. apply (N' m). apply in_or_app. now left.
  Qed.
  Lemma in_force_ok l set : In set (all_sets (fst (run l))) -> in_force l set.
  Proof.
    intro I. destruct (readable_in _ _ _ (all_sets_readable _) I) as (s & I1 & I2 & I3).
    destruct (run_latest l) as [(N & E)|(a & b & E & N)]; [rewrite E in I1; destruct I1|].
    exists a, (fst (run l)), b, s. auto.
  Qed.

  Definition live (c : claims) (ms0 until : N) : Prop :=
    (until <= ms0 + 5000)%N /\ exists e, c_exp c = Some e /\ forall ms, (ms < until)%N -> (ms / 1000 <= e + 60)%N.
  Definition entry_ok (evs : list event) (t : string) (p : claims) (until : N) : Prop :=
    exists pre ms0 h0 post q, evs = pre ++ Request ms0 h0 :: post /\ found (g_locations cfg) h0 (Ok (q, t)) /\
      checked pre ms0 t p /\ live p ms0 until.
  Lemma live_ttl ms c e : c_exp c = Some e -> (ms / 1000 <= e + 60)%N -> live c ms (ms + time_to_live ms c).
  Proof.
    intros E L. unfold live, time_to_live. rewrite E. destruct (N.leb_spec e (ms / 1000)) as [Q|Q].
    - split; [lia|]. exists e. split; [reflexivity|]. intros x X. rewrite N.add_0_r in X.
      assert (x / 1000 <= ms / 1000)%N by (apply N.div_le_mono; lia). lia.
    - split; [lia|]. exists e. split; [reflexivity|]. intros x X.
      assert (M : (ms < 1000 * (ms / 1000) + 1000)%N) by (pose proof (N.div_mod ms 1000); pose proof (N.mod_lt ms 1000); lia).
      assert (x < (e + 1) * 1000)%N by nia. assert (x / 1000 < e + 1)%N by (apply N.div_lt_upper_bound; lia). lia.
  Qed.
  Lemma cache_get_in ms t c p : cache_get ms t c = Some p -> exists until, In (t, (p, until)) c /\ (ms < until)%N.
  Proof.
    induction c as [|[u [q w]] c IH]; cbn [cache_get]; [discriminate|].
    destruct (String.eqb_spec u t) as [->|N]; cbn [andb].
    - destruct (N.ltb_spec ms w) as [L|L].
      + intro E. injection E as ->. exists w. split; [now left|exact L].
      + intro H. destruct (IH H) as (x & X & Y). exists x. split; [now right|exact Y].
    - intro H. destruct (IH H) as (x & X & Y). exists x. split; [now right|exact Y].
  Qed.
  Lemma entry_more evs e t p until : entry_ok evs t p until -> entry_ok (evs ++ [e]) t p until.
  Proof.
    intros (pre & ms0 & h0 & post & q & -> & R). exists pre, ms0, h0, (post ++ [e]), q. rewrite <- app_assoc. auto.
  Qed.
  Lemma authenticate_checked evs ms t p : authenticate (ms / 1000) (all_sets (fst (run evs))) t = Ok p -> checked evs ms t p.
  Proof.
    intro A. apply authenticate_ok in A as (h & set & k & H1 & H2 & H3 & H4 & H5).
    exists set, k. split; [|auto]. apply in_force_ok. now apply (picked_in _ h).
  Qed.
  Lemma checked_live evs ms t p : checked evs ms t p -> live p ms (ms + time_to_live ms p).
  Proof. intros (set & k & _ & _ & _ & (_ & (e & E & L) & _)). now apply (live_ttl ms p e). Qed.
  Lemma cache_inv evs t p until : In (t, (p, until)) (snd (run evs)) -> entry_ok evs t p until.
  Proof.
    revert t p until. induction evs as [|e evs IH] using rev_ind; intros t p until; [intros []|].
    rewrite run_snoc. destruct e as [ms h|srcs|keep]; cbn [JwtModel.step snd].
    - unfold JwtModel.validate_headers. destruct (lookup (g_locations cfg) h) as [[q tok]|e] eqn:L; cbn [snd]; [|intro I; apply entry_more; auto].
      destruct (cache_get ms tok (snd (run evs))) as [c|]; cbn [snd]; [intro I; apply entry_more; auto|].
      destruct (authenticate (ms / 1000) (all_sets (fst (run evs))) tok) as [c|e] eqn:A; cbn [snd]; [|intro I; apply entry_more; auto].
      intros [E|I]; [|apply entry_more; auto]. injection E as <- <- <-. apply authenticate_checked in A.
      exists evs, ms, h, [], q. split; [reflexivity|]. split; [now apply lookup_found|]. split; [exact A|]. now apply (checked_live evs ms tok).
    - intro I. apply entry_more; auto.
    - intro I. apply filter_In in I as [I _]. apply entry_more; auto.
  Qed.

  Lemma answer_sound evs ms h x : answer evs ms h = Ok (Some x) ->
    found (g_locations cfg) h (Ok (x_prefix x, x_token x)) /\ x_scopes_claim x = g_scopes_claim cfg /\
    (exists e, c_exp (x_claims x) = Some e /\ (ms / 1000 <= e + 60)%N) /\
    exists pre ms0 h0 post q, evs ++ [Request ms h] = pre ++ Request ms0 h0 :: post /\ (ms < ms0 + 5000)%N /\
      found (g_locations cfg) h0 (Ok (q, x_token x)) /\ checked pre ms0 (x_token x) (x_claims x).
  Proof.
    unfold JwtModel.answer, JwtModel.validate_headers. destruct (lookup (g_locations cfg) h) as [[q t]|e] eqn:L; cbn [fst].
    2: { destruct (required cfg); discriminate. }
    apply lookup_found in L.
    destruct (cache_get ms t (snd (run evs))) as [p|] eqn:G; cbn [fst].
    - intro E. injection E as <-. cbn [x_prefix x_token x_scopes_claim x_claims]. split; [exact L|]. split; [reflexivity|].
      apply cache_get_in in G as (until & I & U). apply cache_inv in I as (pre & ms0 & h0 & post & q0 & -> & F & C & (B & e & E & X)).
      split; [exists e; split; [exact E|now apply X]|].
      exists pre, ms0, h0, (post ++ [Request ms h]), q0. rewrite <- app_assoc. repeat split; auto. lia.
    - destruct (authenticate (ms / 1000) (all_sets (fst (run evs))) t) as [p|e] eqn:A; cbn [fst].
      2: { destruct (required cfg); discriminate. }
      intro E. injection E as <-. cbn [x_prefix x_token x_scopes_claim x_claims]. split; [exact L|]. split; [reflexivity|].
      apply authenticate_checked in A. split.
      + destruct A as (set & k & _ & _ & _ & (_ & (e & E & X) & _)). exists e. auto.
      + exists evs, ms, h, [], q. repeat split; auto. lia.
  Qed.
  Lemma answer_required evs ms h : g_require cfg = Some true -> answer evs ms h <> Ok None.
  Proof.
    intro R. unfold JwtModel.answer, JwtModel.validate_headers, required. rewrite R.
    destruct (lookup (g_locations cfg) h) as [[q t]|e]; cbn [fst]; [|discriminate].
    destruct (cache_get ms t (snd (run evs))); cbn [fst]; [discriminate|].
    destruct (authenticate (ms / 1000) (all_sets (fst (run evs))) t); discriminate.
  Qed.
  Lemma answer_optional evs ms h e : g_require cfg <> Some true -> answer evs ms h <> Err e.
  Proof.
    intro R. assert (Q : required cfg = false) by (unfold required; destruct (g_require cfg) as [[|]|]; congruence).
    unfold JwtModel.answer, JwtModel.validate_headers. rewrite Q.
    destruct (lookup (g_locations cfg) h) as [[q t]|e']; cbn [fst]; [|discriminate].
    destruct (cache_get ms t (snd (run evs))); cbn [fst]; [discriminate|].
    destruct (authenticate (ms / 1000) (all_sets (fst (run evs))) t); discriminate.
  Qed.
  Lemma answer_complete evs ms h srcs sets q t hd set k c :
    latest evs srcs -> readable srcs sets -> found (g_locations cfg) h (Ok (q, t)) ->
    read_header t = Some hd -> picked sets hd set -> In k set -> verifies k t -> acceptable (ms / 1000) t c ->
    answer evs ms h = Ok (Some (mkcontext c t q (g_scopes_claim cfg))).
  Proof.
    intros La Re Fo Hh P I V A. unfold JwtModel.answer, JwtModel.validate_headers.
    apply lookup_found in Fo. rewrite Fo.
    destruct (cache_get ms t (snd (run evs))) as [p|] eqn:G; cbn [fst].
    - apply cache_get_in in G as (until & J & _). apply cache_inv in J as (pre & ms0 & h0 & post & q0 & _ & _ & (s & k' & _ & _ & _ & (E & _)) & _).
      destruct A as (E' & _). rewrite E in E'. now injection E' as ->.
    - assert (S : all_sets (fst (run evs)) = sets).
      { apply (readable_unique srcs); [|exact Re]. rewrite (latest_unique evs srcs (fst (run evs)) La (run_latest evs)). apply all_sets_readable. }
      rewrite S. now rewrite (proj2 (authenticate_ok (ms / 1000) sets t c) (ex_intro _ hd (ex_intro _ set (ex_intro _ k (conj Hh (conj P (conj I (conj V A)))))))).
  Qed.
  (** A token nothing valid is known about is refused *)
  Lemma answer_refused evs ms h srcs sets q t :
    latest evs srcs -> readable srcs sets -> found (g_locations cfg) h (Ok (q, t)) ->
    (forall pre ms0 h0 post q', evs = pre ++ Request ms0 h0 :: post -> found (g_locations cfg) h0 (Ok (q', t)) -> (ms0 + 5000 <= ms)%N) ->
    (forall hd set k c, read_header t = Some hd -> picked sets hd set -> In k set -> verifies k t -> ~ acceptable (ms / 1000) t c) ->
    forall x, answer evs ms h <> Ok (Some x).
  Proof.
    intros La Re Fo Old No x. unfold JwtModel.answer, JwtModel.validate_headers.
    apply lookup_found in Fo. rewrite Fo.
    destruct (cache_get ms t (snd (run evs))) as [p|] eqn:G; cbn [fst].
    - exfalso. apply cache_get_in in G as (until & J & U). apply cache_inv in J as (pre & ms0 & h0 & post & q0 & E & F & _ & (B & _)).
      specialize (Old _ _ _ _ _ E F). lia.
    - assert (S : all_sets (fst (run evs)) = sets).
      { apply (readable_unique srcs); [|exact Re]. rewrite (latest_unique evs srcs (fst (run evs)) La (run_latest evs)). apply all_sets_readable. }
      rewrite S. destruct (authenticate (ms / 1000) sets t) as [c|e] eqn:A; cbn [fst].
      + exfalso. apply authenticate_ok in A as (hd & set & k & H1 & H2 & H3 & H4 & H5). exact (No hd set k c H1 H2 H3 H4 H5).
      + destruct (required cfg); discriminate.
  Qed.
End Main.

(** * Scopes *)
Lemma claim_get_some n l v : NoDup (map fst l) -> (claim_get n l = Some v <-> In (n, v) l).
Proof.
  induction l as [|[k w] l IH]; cbn [claim_get map]; intro N.
  - split; [discriminate|intros []].
  - inversion N as [|? ? N1 N2]; subst. destruct (String.eqb_spec k n) as [->|Q].
    + split; [intro E; injection E as ->; now left|]. intros [E|I]; [now injection E as ->|].
      exfalso. apply N1. apply in_map_iff. exists (n, v). auto.
    + rewrite (IH N2). split; [now right|]. intros [E|I]; [injection E as -> _; now contradiction Q|exact I].
Qed.
Lemma claim_get_none n l : claim_get n l = None <-> forall w, ~ In (n, w) l.
Proof.
  induction l as [|[k w] l IH]; cbn [claim_get]; [split; [intros _ w []|reflexivity]|].
  destruct (String.eqb_spec k n) as [->|Q].
  - split; [discriminate|]. intro H. exfalso. apply (H w). now left.
  - rewrite IH. split.
    + intros H v [E|I]; [injection E as -> _; now contradiction Q|now apply (H v)].
    + intros H v I. apply (H v). now right.
Qed.
Definition grant (v : claim) : option (list string) :=
  match v with
  | CStr s => Some (split_on " "%char s)
  | CArr l => Some (flat_map (fun o : option string => match o with Some s => [s] | None => [] end) l)
  | COther => None
  end.
Lemma grant_items (l : list (option string)) :
  Forall2 (fun x y => x = Some y) (filter (fun x => match x with Some _ => true | None => false end) l)
    (flat_map (fun o : option string => match o with Some s => [s] | None => [] end) l).
Proof. induction l as [|[s|] l IH]; cbn; [constructor|constructor; auto|exact IH]. Qed.
Lemma grant_ok a n b v more : NoDup (map fst more) -> Forall (fun m => forall w, ~ In (m, w) more) a -> In (n, v) more ->
  granted (a ++ n :: b) more (grant v).
Proof.
  intros N F I. destruct v as [s|l|]; cbn [grant].
  - left. exists (split_on " " s). split; [reflexivity|]. exists a, n, b, (CStr s). repeat split; auto.
    left. exists s. split; [reflexivity|]. apply split_on_ok.
  - left. eexists. split; [reflexivity|]. exists a, n, b, (CArr l). repeat split; auto.
    right. exists l. split; [reflexivity|]. apply grant_items.
  - right. split; [reflexivity|]. right. exists a, n, b. auto.
Qed.
Lemma extract_ok x : NoDup (map fst (c_more (x_claims x))) ->
  granted (match x_scopes_claim x with Some n => [n] | None => ["scope"; "scopes"] end) (c_more (x_claims x)) (extract_scopes x).
Proof.
  intro N. unfold extract_scopes. set (more := c_more (x_claims x)) in *.
  assert (E : forall o, (match o with Some (CStr s) => Some (split_on " "%char s)
     | Some (CArr l) => Some (flat_map (fun o : option string => match o with Some s => [s] | None => [] end) l) | _ => None end)
     = match o with Some v => grant v | None => None end) by (intros [[s|l|]|]; reflexivity).
  rewrite E. destruct (x_scopes_claim x) as [n|].
  - destruct (claim_get n more) as [v|] eqn:G.
    + apply claim_get_some in G; [|exact N]. now apply (grant_ok [] n []).
    + right. split; [reflexivity|]. left. constructor; [now apply claim_get_none|constructor].
  - destruct (claim_get "scope" more) as [v|] eqn:G.
    + apply claim_get_some in G; [|exact N]. now apply (grant_ok [] "scope" ["scopes"]).
    + pose proof (proj1 (claim_get_none _ _) G) as G0. destruct (claim_get "scopes" more) as [v|] eqn:G2.
      * apply claim_get_some in G2; [|exact N]. apply (grant_ok ["scope"] "scopes" []); auto.
      * pose proof (proj1 (claim_get_none _ _) G2) as G3. right. split; [reflexivity|]. left. repeat constructor; assumption.
Qed.

(** * Where the keys come from *)
Lemma prefetch_ok ps l : prefetch ps = Some l <->
  Forall2 (fun p held => if should_prefetch (fst p) then snd p <> None /\ held = snd p else held = None) ps l.
Proof.
  revert l. induction ps as [|[p [s|]] ps IH]; intro l; cbn [prefetch].
  - split; [intro E; injection E as <-; constructor|intro F; now inversion F].
  - destruct (should_prefetch p) eqn:Q.
    + destruct (prefetch ps) as [r|].
      * split.
        -- intro E. injection E as <-. constructor; [cbn [fst snd load]; rewrite Q; split; [discriminate|reflexivity]|now apply IH].
        -- intro F. inversion F as [|? h ? r' F1 F2]; subst. cbn [fst snd load] in *. rewrite Q in F1. destruct F1 as [_ ->].
           apply IH in F2. now injection F2 as ->.
      * split; [discriminate|]. intro F. inversion F as [|? h ? r' F1 F2]; subst. apply IH in F2. discriminate.
    + destruct (prefetch ps) as [r|].
      * split.
        -- intro E. injection E as <-. constructor; [cbn [fst]; now rewrite Q|now apply IH].
        -- intro F. inversion F as [|? h ? r' F1 F2]; subst. cbn [fst] in *. rewrite Q in F1. subst. apply IH in F2. now injection F2 as ->.
      * split; [discriminate|]. intro F. inversion F as [|? h ? r' F1 F2]; subst. apply IH in F2. discriminate.
  - destruct (should_prefetch p) eqn:Q.
    + split; [discriminate|]. intro F. inversion F as [|? h ? r' F1 F2]; subst. cbn [fst snd] in F1. rewrite Q in F1. now destruct F1.
    + destruct (prefetch ps) as [r|].
      * split.
        -- intro E. injection E as <-. constructor; [cbn [fst]; now rewrite Q|now apply IH].
        -- intro F. inversion F as [|? h ? r' F1 F2]; subst. cbn [fst] in *. rewrite Q in F1. subst. apply IH in F2. now injection F2 as ->.
      * split; [discriminate|]. intro F. inversion F as [|? h ? r' F1 F2]; subst. apply IH in F2. discriminate.
Qed.
Lemma prefetch_spec ps l : prefetch ps = Some l <->
  Forall2 (fun p held => match fst p with
                         | File | Remote _ (Some true) => snd p <> None /\ held = snd p
                         | _ => held = None
                         end) ps l.
Proof.
  rewrite prefetch_ok. split; intro F; induction F as [|[[i [[|]|]|] f] h ps l H _ IH]; constructor; auto.
Qed.
Lemma ticks_keep p l held : held <> None -> fold_left (fun h f => tick p f h) l held <> None.
Proof.
  revert held. induction l as [|f l IH]; intros held H; [exact H|]. cbn [fold_left]. apply IH. unfold tick, load.
  destruct (should_poll p && task_loops p)%bool; [|exact H]. destruct f; [discriminate|exact H].
Qed.
Lemma ticks_none prefetch l : fold_left (fun h f => tick (Remote None prefetch) f h) l None = None.
Proof. induction l as [|f l IH]; [reflexivity|]. cbn [fold_left]. exact IH. Qed.
