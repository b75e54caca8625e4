From Coq Require Import List NArith Bool Arith Lia.
From Verif Require Import InflightModel InflightSpec.
Import ListNotations.

Section P.
  Variables V E : Type.
  Notation event := (event V E).
  Notation state := (state V E).
  Implicit Types s : state.
  Implicit Types tr : list event.

  Lemma upd_same {A} (f : nat -> A) i a : upd f i a i = a.
  Proof. unfold upd. rewrite Nat.eqb_refl. reflexivity. Qed.
  Lemma upd_other {A} (f : nat -> A) i j a : j <> i -> upd f i a j = f j.
  Proof. intros N. unfold upd. apply Nat.eqb_neq in N. rewrite N. reflexivity. Qed.
  Lemma updk_same {A} (f : key -> A) i a : updk f i a i = a.
  Proof. unfold updk. rewrite N.eqb_refl. reflexivity. Qed.
  Lemma updk_other {A} (f : key -> A) i j a : j <> i -> updk f i a j = f j.
  Proof. intros N. unfold updk. apply N.eqb_neq in N. rewrite N. reflexivity. Qed.
  Lemma exec_snoc tr : forall s e, exec s (tr ++ [e]) = match exec s tr with Some s' => step s' e | None => None end.
  Proof.
    induction tr as [|a tr IH]; intros s e; cbn [app exec]; [destruct (step s e); reflexivity|].
    destruct (step s a); [apply IH|reflexivity].
  Qed.
  Lemma snoc_split {A} (l : list A) e pre x post : l ++ [e] = pre ++ x :: post ->
    (exists post', l = pre ++ x :: post' /\ post = post' ++ [e]) \/ (pre = l /\ x = e /\ post = []).
  Proof.
    intros H. destruct post as [|y post] using rev_ind.
    - apply app_inj_tail in H. destruct H as [-> ->]. right. auto.
    - left. rewrite app_comm_cons, app_assoc in H. apply app_inj_tail in H. destruct H as [-> ->]. eauto.
  Qed.
  Definition pending (p : phase V E) (c : nat) : Prop := p = Waiting c \/ p = Running c \/ exists res, p = Ended c res.
  Definition holds (p : phase V E) (c : nat) : Prop := p = Running c \/ exists res, p = Ended c res.
  Definition before_end (p : phase V E) : Prop := (exists c, p = Waiting c) \/ (exists c, p = Running c).
  (** [l] supplied [v] to the cell [c] *)
  Definition supplies (ck : nat -> key) tr s (l c : nat) (v : V) : Prop :=
    In (EClaim l (ck c)) tr /\ yielded l v tr /\
    (s_map s (ck c) = Some c -> ~ completed l tr /\ (exists p, s_pump s l = Some p)) /\
    (forall r q, s_req s r = Some q -> pending (q_phase q) c -> in_time r l tr) /\
    (exists q, s_req s l = Some q /\ q_key q = ck c).

  Definition quiet (l : nat) tr : Prop := forall e, In e tr -> (forall res, e <> EEnd l res) /\ (forall v, e <> EEndKeep l v) /\ e <> EDrop l.
  Record inv (ck : nat -> key) tr s : Prop := {
    v_map : forall k c, s_map s k = Some c -> c < s_next s /\ ck c = k;
    v_pend : forall r q c, s_req s r = Some q -> pending (q_phase q) c -> c < s_next s /\ ck c = q_key q;
    v_claim : forall r k, In (EClaim r k) tr <-> exists q, s_req s r = Some q /\ q_key q = k;
    v_busy : forall c l, s_busy s c = Some l <-> exists q, s_req s l = Some q /\ holds (q_phase q) c;
    v_once : forall c v, s_val s c = Some v -> s_busy s c = None;
    v_new : forall c, s_next s <= c -> s_val s c = None;
    v_val : forall c v, s_val s c = Some v -> exists l, supplies ck tr s l c v;
    v_ended : forall l k c v, s_req s l = Some (mkreq k (Ended c (inl v))) -> supplies ck tr s l c v;
    v_early : forall l q, s_req s l = Some q -> before_end (q_phase q) -> quiet l tr /\ s_pump s l = None;
    v_none : forall l, s_req s l = None -> quiet l tr /\ s_pump s l = None;
    v_pump : forall l p, s_pump s l = Some p -> (exists v, In (EEndKeep l v) tr) /\ (p <> Dropped -> ~ In (EDrop l) tr) /\ forall res, ~ In (EEnd l res) tr;
    v_got : forall r k v, s_req s r = Some (mkreq k (Got v)) ->
      exists l, In (EClaim l k) tr /\ yielded l v tr /\ in_time r l tr;
    v_failed : forall r k e, s_req s r = Some (mkreq k (Failed e)) -> In (EEnd r (inr e)) tr;
    v_failing : forall r k c e, s_req s r = Some (mkreq k (Ended c (inr e))) -> In (EEnd r (inr e)) tr }.

  Lemma completed_snoc l tr e : completed l (tr ++ [e]) <-> completed l tr \/ (exists res, e = EEnd l res) \/ e = EDrop l.
  Proof.
    unfold completed. rewrite in_app_iff. split.
    - intros [[res H]|H].
      + apply in_app_iff in H. destruct H as [H|[H|[]]]; eauto.
      + destruct H as [H|[H|[]]]; auto.
    - intros [[[res H]|H]|[[res ->]| ->]]; eauto; [left; exists res; apply in_app_iff; auto|left; exists res; apply in_app_iff; right; left; reflexivity|right; right; left; reflexivity].
  Qed.
  Lemma in_time_snoc r l tr e : in_time r l tr -> (forall k, e <> EClaim r k) -> in_time r l (tr ++ [e]).
  Proof.
    intros T N pre k post H. apply snoc_split in H. destruct H as [(post' & -> & ->)|(-> & H & _)].
    - eapply T. reflexivity.
    - exfalso. apply (N k). congruence.
  Qed.
  Lemma yielded_snoc l v tr e : yielded l v tr -> yielded l v (tr ++ [e]).
  Proof. intros [H|H]; [left|right]; apply in_app_iff; auto. Qed.

  Lemma supplies_keep ck tr s e s' l c v : supplies ck tr s l c v ->
    (s_map s' (ck c) = Some c -> s_map s (ck c) = Some c /\ (forall res, e <> EEnd l res) /\ e <> EDrop l) ->
    (forall p, s_pump s l = Some p -> exists p', s_pump s' l = Some p') ->
    (forall r q, s_req s' r = Some q -> pending (q_phase q) c ->
       (exists q0, s_req s r = Some q0 /\ pending (q_phase q0) c /\ forall k, e <> EClaim r k) \/ in_time r l (tr ++ [e])) ->
    (forall q, s_req s l = Some q -> exists q', s_req s' l = Some q' /\ q_key q' = q_key q) ->
    supplies ck (tr ++ [e]) s' l c v.
  Proof.
    intros (C & Y & M & T & Q) Hm Hp Hr Hq. split; [apply in_app_iff; auto|]. split; [apply yielded_snoc, Y|]. split; [|split].
    - intros H. destruct (Hm H) as (H1 & H2 & H3). destruct (M H1) as (N & p & Ep). split.
      + rewrite completed_snoc. intros [A|[[res A]|A]]; [apply N, A|apply (H2 res A)|apply (H3 A)].
      + apply (Hp p Ep).
    - intros r q Er Pr. destruct (Hr r q Er Pr) as [(q0 & E0 & P0 & N)|D]; [|exact D]. apply in_time_snoc; [eapply T; eassumption|exact N].
    - destruct Q as (q & Eq & Ek). destruct (Hq q Eq) as (q' & Eq' & Ek'). exists q'. split; [exact Eq'|congruence].
  Qed.
  Lemma claim_snoc r k tr e : In (EClaim r k) (tr ++ [e]) <-> In (EClaim r k) tr \/ e = EClaim r k.
  Proof. rewrite in_app_iff. cbn. intuition. Qed.
  Lemma keep_snoc l v tr e : In (EEndKeep l v) (tr ++ [e]) <-> In (EEndKeep l v) tr \/ e = EEndKeep l v.
  Proof. rewrite in_app_iff. cbn. intuition. Qed.
  Lemma end_snoc l v tr e : In (EEnd l v) (tr ++ [e]) <-> In (EEnd l v) tr \/ e = EEnd l v.
  Proof. rewrite in_app_iff. cbn. intuition. Qed.
  Lemma drop_snoc l tr e : In (EDrop l) (tr ++ [e]) <-> In (EDrop l) tr \/ e = EDrop l.
  Proof. rewrite in_app_iff. cbn. intuition. Qed.
  Lemma pending_inj p c c' : pending p c -> pending p c' -> c = c'.
  Proof. intros [->|[->|[r ->]]] [H|[H|[r' H]]]; congruence. Qed.

  Lemma quiet_snoc l tr e : quiet l tr -> (forall res, e <> EEnd l res) -> (forall v, e <> EEndKeep l v) -> e <> EDrop l -> quiet l (tr ++ [e]).
  Proof. intros Q A B C x H. apply in_app_iff in H. destruct H as [H|[<-|[]]]; [apply Q, H|auto]. Qed.
  Lemma quiet_completed l tr : quiet l tr -> ~ completed l tr.
  Proof. intros Q [[res H]|H]; apply Q in H; destruct H as (A & B & C); [apply (A res); reflexivity|apply C; reflexivity]. Qed.

  Lemma inv_init ck : inv ck [] init.
  Proof.
    constructor; try discriminate; try (intros; discriminate).
    - intros r k. split; [intros []|]. intros (q & H & _). discriminate H.
    - intros c l. split; [discriminate|]. intros (q & H & _). discriminate H.
    - reflexivity.
    - intros l _. split; [intros e []|reflexivity].
  Qed.

  Ltac who r0 r := destruct (Nat.eq_dec r0 r) as [?|?]; [subst r0|].
  Ltac up := repeat first [rewrite upd_same in *|rewrite upd_other in * by assumption|rewrite updk_same in *|rewrite updk_other in * by assumption].

  (** An event that concerns the request [r], which goes from phase [p] to [p']. *)
  Section Phase.
    Variables (ck : nat -> key) (tr : list event) (s s' : state) (e : event) (r : nat) (k : key) (p p' : phase V E).
    Hypothesis I : inv ck tr s.
    Hypothesis Er : s_req s r = Some (mkreq k p).
    Hypothesis Er' : forall r0, s_req s' r0 = upd (s_req s) r (Some (mkreq k p')) r0.
    Hypothesis En : s_next s' = s_next s.
    Hypothesis Ne : forall r0 k0, e <> EClaim r0 k0.
    Hypothesis Hmap : forall k c, s_map s' k = Some c -> s_map s k = Some c.
    Hypothesis Hpend : forall c, pending p' c -> pending p c.
    Hypothesis Hother : forall l, l <> r -> (forall res, e <> EEnd l res) /\ (forall v, e <> EEndKeep l v) /\ e <> EDrop l.
    Hypothesis Hcompl : (exists res, e = EEnd r res) \/ e = EDrop r -> s_map s' k = None.
    Hypothesis Hpumps : forall l, l <> r -> s_pump s' l = s_pump s l.
    Hypothesis Hpump_r : forall x, s_pump s r = Some x -> exists y, s_pump s' r = Some y.

    Lemma sup_phase l c v : supplies ck tr s l c v -> supplies ck (tr ++ [e]) s' l c v.
    Proof.
      intros Sp. eapply supplies_keep; [exact Sp| | | |].
      - intros H. split; [apply Hmap, H|]. who l r.
        + destruct Sp as (_ & _ & _ & _ & q & Eq & Ek). rewrite Er in Eq. injection Eq as <-. cbn [q_key] in Ek. subst k.
          assert (N : ~ ((exists res, e = EEnd r res) \/ e = EDrop r)).
          { intros H'. apply Hcompl in H'. congruence. }
          split; [intros res H'; apply N; eauto|intros H'; apply N; auto].
        + destruct (Hother l n) as (A & _ & B). auto.
      - intros x Hx. who l r; [eauto|]. rewrite Hpumps by assumption. eauto.
      - intros r0 q E0 P0. left. rewrite Er' in E0. who r0 r; up.
        + injection E0 as <-. exists (mkreq k p). split; [exact Er|]. split; [apply Hpend, P0|apply Ne].
        + exists q. split; [exact E0|]. split; [exact P0|apply Ne].
      - intros q Eq. rewrite Er'. who l r; up; [|eauto]. rewrite Er in Eq. injection Eq as <-. eexists. split; reflexivity.
    Qed.

    Hypothesis Hbusy : forall c l, s_busy s' c = Some l <-> exists q, s_req s' l = Some q /\ holds (q_phase q) c.
    Hypothesis Honce : forall c v, s_val s' c = Some v -> s_busy s' c = None.
    Hypothesis Hnew : forall c, s_next s <= c -> s_val s' c = None.
    Hypothesis Hval : forall c v, s_val s' c = Some v -> s_val s c = Some v \/ supplies ck (tr ++ [e]) s' r c v.
    Hypothesis Hend : forall c v, p' = Ended c (inl v) -> supplies ck (tr ++ [e]) s' r c v.
    Hypothesis Hearly : before_end p' -> quiet r (tr ++ [e]) /\ s_pump s' r = None.
    Hypothesis Hpump : forall x, s_pump s' r = Some x -> (exists v, In (EEndKeep r v) (tr ++ [e])) /\
      (x <> Dropped -> ~ In (EDrop r) (tr ++ [e])) /\ forall res, ~ In (EEnd r res) (tr ++ [e]).
    Hypothesis Hgot : forall v, p' = Got v -> exists l, In (EClaim l k) tr /\ yielded l v tr /\ in_time r l tr.
    Hypothesis Hfail : forall x, p' = Failed x \/ (exists c, p' = Ended c (inr x)) -> In (EEnd r (inr x)) (tr ++ [e]).

    Lemma inv_phase : inv ck (tr ++ [e]) s'.
    Proof.
      constructor.
      - intros k0 c H. rewrite En. apply (v_map _ _ _ I), Hmap, H.
      - intros r0 q c E0 P0. rewrite En. rewrite Er' in E0. who r0 r; up; [|eapply (v_pend _ _ _ I); eassumption].
        injection E0 as <-. apply (v_pend _ _ _ I _ _ c Er). apply Hpend, P0.
      - intros r0 k0. rewrite claim_snoc, Er', (v_claim _ _ _ I). who r0 r; up.
        + split; [intros [(q & H & Hk)|H]; [rewrite Er in H; injection H as <-|destruct (Ne _ _ H)]; eexists; split; [reflexivity|exact Hk]|].
          intros (q & H & Hk). injection H as <-. left. exists (mkreq k p). auto.
        + split; [intros [H|H]; [exact H|destruct (Ne _ _ H)]|auto].
      - exact Hbusy.
      - exact Honce.
      - intros c. rewrite En. apply Hnew.
      - intros c v H. destruct (Hval c v H) as [H'|H']; [|eauto]. destruct (v_val _ _ _ I c v H') as [l Sp]. exists l. apply sup_phase, Sp.
      - intros l k0 c v H. rewrite Er' in H. who l r; up; [apply Hend; congruence|]. eapply sup_phase, (v_ended _ _ _ I), H.
      - intros l q H B. rewrite Er' in H. who l r; up; [injection H as <-; apply Hearly, B|].
        destruct (v_early _ _ _ I l q H B) as [Q Pp]. destruct (Hother l n) as (A1 & A2 & A3). split; [apply quiet_snoc; assumption|]. rewrite Hpumps; assumption.
      - intros l H. rewrite Er' in H. who l r; up; [discriminate H|].
        destruct (v_none _ _ _ I l H) as [Q Pp]. destruct (Hother l n) as (A1 & A2 & A3). split; [apply quiet_snoc; assumption|]. rewrite Hpumps; assumption.
      - intros l x H. who l r; [apply Hpump, H|]. rewrite Hpumps in H by assumption.
        destruct (v_pump _ _ _ I l x H) as ([v A] & B & C). destruct (Hother l n) as (A1 & A2 & A3). split; [exists v; apply keep_snoc; auto|]. split.
        + intros N H'. apply drop_snoc in H'. destruct H' as [H'|H']; [apply (B N H')|auto].
        + intros res H'. apply end_snoc in H'. destruct H' as [H'|H']; [apply (C res H')|apply (A1 res H')].
      - intros r0 k0 v H. rewrite Er' in H. who r0 r; up.
        + assert (K : p' = Got v /\ k0 = k) by (split; congruence). destruct K as [K ->]. destruct (Hgot v K) as (l & A & B & C).
          exists l. split; [apply claim_snoc; auto|]. split; [apply yielded_snoc, B|apply in_time_snoc; [exact C|apply Ne]].
        + destruct (v_got _ _ _ I r0 k0 v H) as (l & A & B & C).
          exists l. split; [apply claim_snoc; auto|]. split; [apply yielded_snoc, B|apply in_time_snoc; [exact C|apply Ne]].
      - intros r0 k0 x H. rewrite Er' in H. who r0 r; up; [apply Hfail; left; congruence|]. apply end_snoc. left. eapply (v_failed _ _ _ I), H.
      - intros r0 k0 c x H. rewrite Er' in H. who r0 r; up; [apply Hfail; right; exists c; congruence|]. apply end_snoc. left. eapply (v_failing _ _ _ I), H.
    Qed.
  End Phase.

  Lemma quiet_in_time r l tr e : quiet l tr -> (forall k, e <> EClaim r k) -> in_time r l (tr ++ [e]).
  Proof.
    intros Q N. apply in_time_snoc; [|exact N]. intros pre k post -> H. apply (quiet_completed l (pre ++ EClaim r k :: post) Q).
    destruct H as [[res H]|H]; [left; exists res|right]; apply in_app_iff; auto.
  Qed.
  Lemma in_claim tr s ck r q : inv ck tr s -> s_req s r = Some q -> In (EClaim r (q_key q)) tr.
  Proof. intros I H. apply (v_claim _ _ _ I). eauto. Qed.
  Lemma busy_other s s' r q' (P : nat -> Prop) : (forall r0, s_req s' r0 = upd (s_req s) r (Some q') r0) ->
    forall l, l <> r -> forall c, (exists q, s_req s' l = Some q /\ holds (q_phase q) c) <-> (exists q, s_req s l = Some q /\ holds (q_phase q) c).
  Proof. intros H l N c. rewrite H, upd_other by exact N. reflexivity. Qed.
  Lemma holds_inj p c c' : holds p c -> holds p c' -> c = c'.
  Proof. intros [->|[r ->]] [H|[r' H]]; congruence. Qed.
  Lemma holder ck tr s r k p c : inv ck tr s -> s_req s r = Some (mkreq k p) -> holds p c -> s_busy s c = Some r.
  Proof. intros I Er H. apply (v_busy _ _ _ I). eauto. Qed.

  Ltac other := intros l N; repeat split; intros; congruence.
  Ltac nope := intros; match goal with
    | H : pending _ _ |- _ => destruct H as [H|[H|[? H]]]; discriminate H
    | H : before_end _ |- _ => destruct H as [[? H]|[? H]]; discriminate H
    | H : _ \/ exists _, _ |- _ => destruct H as [H|[? H]]; discriminate H
    | _ => congruence end.

  (** A new request. *)
  Section Claim.
    Variables (ck ck' : nat -> key) (tr : list event) (s s' : state) (r : nat) (k : key) (c : nat).
    Hypothesis I : inv ck tr s.
    Hypothesis Er : s_req s r = None.
    Hypothesis Er' : forall r0, s_req s' r0 = upd (s_req s) r (Some (mkreq k (Waiting c))) r0.
    Hypothesis Hn : s_next s <= s_next s'.
    Hypothesis Hck : forall c0, c0 < s_next s -> ck' c0 = ck c0.
    Hypothesis Hmap : forall k0 c0, s_map s' k0 = Some c0 -> c0 < s_next s' /\ ck' c0 = k0 /\ (c0 < s_next s -> s_map s k0 = Some c0).
    Hypothesis Hc : s_map s' k = Some c.
    Hypothesis Ev : s_val s' = s_val s.
    Hypothesis Eb : s_busy s' = s_busy s.
    Hypothesis Ep : s_pump s' = s_pump s.
    Let e : event := EClaim r k.

    Lemma no_claim k' : ~ In (EClaim r k') tr.
    Proof. intros H. apply (v_claim _ _ _ I) in H. destruct H as (q & H & _). congruence. Qed.
    Lemma sup_claim l c0 v : c0 < s_next s -> supplies ck tr s l c0 v -> supplies ck' (tr ++ [e]) s' l c0 v.
    Proof.
      intros Lc Sp. assert (Sp' : supplies ck (tr ++ [e]) s' l c0 v); [|unfold supplies in *; rewrite Hck by exact Lc; exact Sp'].
      eapply supplies_keep; [exact Sp| | | |].
      - intros H. split; [apply Hmap in H; apply H, Lc|]. split; [intros res|]; discriminate.
      - rewrite Ep. eauto.
      - intros r0 q E0 P0. rewrite Er' in E0. who r0 r; up.
        + right. injection E0 as <-. cbn [q_phase] in P0.
          assert (c0 = c) by (destruct P0 as [P0|[P0|[? P0]]]; congruence). subst c0.
          destruct Sp as (_ & _ & M & _). destruct (Hmap _ _ Hc) as (_ & Kc & Mc). rewrite Hck in Kc by exact Lc. rewrite Kc in M. destruct (M (Mc Lc)) as [Nc _].
          intros pre k' post H. apply snoc_split in H. destruct H as [(post' & H & _)|(-> & _)]; [|exact Nc].
          exfalso. apply (no_claim k'). rewrite H. apply in_app_iff. right. left. reflexivity.
        + left. exists q. split; [exact E0|]. split; [exact P0|]. intros k' H. unfold e in H. congruence.
      - intros q Eq. rewrite Er'. who l r; [congruence|]. up. eauto.
    Qed.
    Lemma inv_claim : inv ck' (tr ++ [e]) s'.
    Proof.
      constructor.
      - intros k0 c0 H. destruct (Hmap _ _ H) as (A & B & _). auto.
      - intros r0 q c0 E0 P0. rewrite Er' in E0. who r0 r; up.
        + injection E0 as <-. cbn [q_phase q_key] in *. assert (c0 = c) by (destruct P0 as [P0|[P0|[? P0]]]; congruence). subst.
          destruct (Hmap _ _ Hc) as (A & B & _). auto.
        + destruct (v_pend _ _ _ I r0 q c0 E0 P0) as [A B]. split; [lia|]. rewrite Hck by exact A. exact B.
      - intros r0 k0. rewrite claim_snoc, Er'. who r0 r; up.
        + split; [intros [H|H]; [destruct (no_claim _ H)|]; injection H as <-; eexists; split; reflexivity|].
          intros (q & H & Hk). injection H as <-. right. cbn in Hk. unfold e. congruence.
        + rewrite (v_claim _ _ _ I). split; [intros [H|H]; [exact H|unfold e in H; congruence]|auto].
      - intros c0 l. rewrite Eb, (v_busy _ _ _ I), Er'. who l r; up; [|reflexivity]. split; intros (q & H & Hh); [congruence|].
        injection H as <-. destruct Hh as [H|[? H]]; discriminate H.
      - rewrite Ev, Eb. apply (v_once _ _ _ I).
      - rewrite Ev. intros c0 H. apply (v_new _ _ _ I). lia.
      - rewrite Ev. intros c0 v H. destruct (v_val _ _ _ I c0 v H) as [l Sp]. exists l. apply sup_claim, Sp.
        destruct (le_lt_dec (s_next s) c0) as [L|L]; [|exact L]. rewrite (v_new _ _ _ I c0 L) in H. discriminate H.
      - intros l k0 c0 v H. rewrite Er' in H. who l r; up; [discriminate H|]. apply sup_claim; [|eapply (v_ended _ _ _ I), H].
        eapply (v_pend _ _ _ I); [exact H|]. right. right. eexists. reflexivity.
      - intros l q H B. rewrite Ep. rewrite Er' in H. who l r; up.
        + destruct (v_none _ _ _ I r Er) as [Q Pp]. split; [|exact Pp]. apply quiet_snoc; [exact Q|intros; discriminate..].
        + destruct (v_early _ _ _ I l q H B) as [Q Pp]. split; [|exact Pp]. apply quiet_snoc; [exact Q|intros; discriminate..].
      - intros l H. rewrite Ep. rewrite Er' in H. who l r; up; [discriminate H|].
        destruct (v_none _ _ _ I l H) as [Q Pp]. split; [|exact Pp]. apply quiet_snoc; [exact Q|intros; discriminate..].
      - intros l p H. rewrite Ep in H. destruct (v_pump _ _ _ I l p H) as ([v A] & B & C). split; [exists v; apply keep_snoc; auto|]. split.
        + intros N H'. apply drop_snoc in H'. destruct H' as [H'|H']; [apply (B N H')|discriminate].
        + intros res H'. apply end_snoc in H'. destruct H' as [H'|H']; [apply (C res H')|discriminate].
      - intros r0 k0 v H. rewrite Er' in H. who r0 r; up; [discriminate H|]. destruct (v_got _ _ _ I r0 k0 v H) as (l & A & B & C).
        exists l. split; [apply claim_snoc; auto|]. split; [apply yielded_snoc, B|]. apply in_time_snoc; [exact C|unfold e; congruence].
      - intros r0 k0 x H. rewrite Er' in H. who r0 r; up; [discriminate H|]. apply end_snoc. left. eapply (v_failed _ _ _ I), H.
      - intros r0 k0 c0 x H. rewrite Er' in H. who r0 r; up; [discriminate H|]. apply end_snoc. left. eapply (v_failing _ _ _ I), H.
    Qed.
  End Claim.

  Lemma inv_step ck tr s e s' : inv ck tr s -> step s e = Some s' -> exists ck', inv ck' (tr ++ [e]) s'.
  Proof.
    intros I St. destruct e as [r k|r|r res|r v|r|r|r|r|r]; cbn [step] in St.
    - (* claim *)
      destruct (s_req s r) as [|] eqn:Er; [discriminate St|].
      destruct (s_map s k) as [c|] eqn:Em; injection St as <-.
      + exists ck. eapply (inv_claim ck ck tr s _ r k c I Er); cbn [set_req s_req s_map s_val s_busy s_next s_pump]; try reflexivity; auto.
        intros k0 c0 H. destruct (v_map _ _ _ I _ _ H). auto.
      + exists (upd ck (s_next s) k). eapply (inv_claim ck _ tr s _ r k (s_next s) I Er); cbn [set_req s_req s_map s_val s_busy s_next s_pump]; try reflexivity; auto.
        * intros c0 L. rewrite upd_other by lia. reflexivity.
        * intros k0 c0 H. destruct (N.eq_dec k0 k) as [->|]; up.
          -- injection H as <-. rewrite upd_same. split; [lia|]. split; [reflexivity|]. intros L. lia.
          -- destruct (v_map _ _ _ I _ _ H) as [A B]. rewrite upd_other by lia. auto.
        * up. reflexivity.
    - (* start *)
      destruct (s_req s r) as [[k [c|c|c res|v|x|]]|] eqn:Er; try discriminate St.
      destruct (s_val s c) eqn:Ev; [discriminate St|]. destruct (s_busy s c) eqn:Eb; [discriminate St|]. injection St as <-. exists ck.
      destruct (v_early _ _ _ I r _ Er) as [Q Pp]; [left; eexists; reflexivity|].
      eapply (inv_phase ck tr s _ (EStart r) r k (Waiting c) (Running c) I Er); cbn [set_req s_req s_map s_val s_busy s_next s_pump]; try reflexivity; try discriminate; eauto; try nope.
      + intros c0 [H|[H|[? H]]]; try discriminate H. injection H as <-. left. reflexivity.
      + other.
      + intros [[? H]|H]; discriminate H.
      + intros c0 l. who l r; up.
        * who c0 c; up.
          -- split; [|reflexivity]. intros _. eexists. split; [reflexivity|]. left. reflexivity.
          -- rewrite (v_busy _ _ _ I). split; intros (q & H & Hh).
             ++ rewrite Er in H. injection H as <-. destruct Hh as [H|[? H]]; discriminate H.
             ++ injection H as <-. destruct Hh as [H|[? H]]; [injection H as <-; congruence|discriminate H].
        * who c0 c; up; [|apply (v_busy _ _ _ I)]. split; [congruence|]. intros H. apply (v_busy _ _ _ I) in H. congruence.
      + intros c0 v H. who c0 c; up; [congruence|]. eapply (v_once _ _ _ I). exact H.
      + apply (v_new _ _ _ I).
      + intros _. split; [|exact Pp]. apply quiet_snoc; [exact Q|intros; discriminate..].
    - (* end *)
      destruct (s_req s r) as [[k [c|c|c ?|v|x|]]|] eqn:Er; try discriminate St. injection St as <-. exists ck.
      destruct (v_early _ _ _ I r _ Er) as [Q Pp]; [right; eexists; reflexivity|].
      destruct (v_pend _ _ _ I r _ c Er) as [Lc Kc]; [right; left; reflexivity|]. cbn [q_key] in Kc.
      eapply (inv_phase ck tr s _ (EEnd r res) r k (Running c) (Ended c res) I Er); cbn [set_req cleanup s_req s_map s_val s_busy s_next s_pump]; try reflexivity; try discriminate; eauto; try nope.
      + intros k0 c0 H. destruct (N.eq_dec k0 k) as [->|]; up; [discriminate H|exact H].
      + intros c0 [H|[H|[? H]]]; try discriminate H. injection H as <- _. right. left. reflexivity.
      + other.
      + intros _. up. reflexivity.
      + intros c0 l. rewrite (v_busy _ _ _ I). who l r; up; [|reflexivity]. split; intros (q & H & Hh).
        * rewrite Er in H. injection H as <-. eexists. split; [reflexivity|]. right. exists res. cbn [q_phase] in *.
          destruct Hh as [H|[? H]]; [injection H as <-; reflexivity|discriminate H].
        * injection H as <-. exists (mkreq k (Running c)). split; [exact Er|]. left. cbn [q_phase] in *.
          destruct Hh as [H|[? H]]; [discriminate H|injection H as <- _; reflexivity].
      + apply (v_once _ _ _ I).
      + apply (v_new _ _ _ I).
      + intros c0 v H. injection H as <- ->. split; [apply claim_snoc; left; rewrite Kc; apply (in_claim _ _ _ _ _ I Er)|].
        split; [left; apply end_snoc; auto|]. split; [cbn [set_req cleanup s_map]; rewrite Kc; up; discriminate|]. split.
        * intros r0 q0 _ _. apply quiet_in_time; [exact Q|intros; discriminate].
        * cbn [set_req s_req]. up. eexists. split; [reflexivity|]. cbn. congruence.
      + intros x [H|[c0 H]]; [discriminate H|]. injection H as _ ->. apply end_snoc. auto.
    - (* end, the guard kept *)
      destruct (s_req s r) as [[k [c|c|c ?|v0|x|]]|] eqn:Er; try discriminate St. injection St as <-. exists ck.
      destruct (v_early _ _ _ I r _ Er) as [Q Pp]; [right; eexists; reflexivity|].
      destruct (v_pend _ _ _ I r _ c Er) as [Lc Kc]; [right; left; reflexivity|]. cbn [q_key] in Kc.
      eapply (inv_phase ck tr s _ (EEndKeep r v) r k (Running c) (Ended c (inl v)) I Er); cbn [set_req cleanup s_req s_map s_val s_busy s_next s_pump]; try reflexivity; try discriminate; eauto; try nope.
      + intros c0 [H|[H|[? H]]]; try discriminate H. injection H as <- _. right. left. reflexivity.
      + other.
      + intros [[? H]|H]; discriminate H.
      + intros l N. up. reflexivity.
      + intros c0 l. rewrite (v_busy _ _ _ I). who l r; up; [|reflexivity]. split; intros (q & H & Hh).
        * rewrite Er in H. injection H as <-. eexists. split; [reflexivity|]. right. exists (inl v). cbn [q_phase] in *.
          destruct Hh as [H|[? H]]; [injection H as <-; reflexivity|discriminate H].
        * injection H as <-. exists (mkreq k (Running c)). split; [exact Er|]. left. cbn [q_phase] in *.
          destruct Hh as [H|[? H]]; [discriminate H|injection H as <- _; reflexivity].
      + apply (v_once _ _ _ I).
      + apply (v_new _ _ _ I).
      + intros c0 v1 H. injection H as <- <-. split; [apply claim_snoc; left; rewrite Kc; apply (in_claim _ _ _ _ _ I Er)|].
        split; [right; apply keep_snoc; auto|]. split; [cbn [set_req s_map s_pump]; intros _; split; [|up; eauto]|].
        { rewrite completed_snoc. intros [H|[[? H]|H]]; [|discriminate..]. exact (quiet_completed _ _ Q H). }
        split.
        * intros r0 q0 _ _. apply quiet_in_time; [exact Q|intros; discriminate].
        * cbn [set_req s_req]. up. eexists. split; [reflexivity|]. cbn. congruence.
      + intros x _. split; [exists v; apply keep_snoc; auto|]. split.
        * intros _ H. apply drop_snoc in H. destruct H as [H|H]; [|discriminate H]. apply Q in H. destruct H as (_ & _ & H). congruence.
        * intros res H. apply end_snoc in H. destruct H as [H|H]; [|discriminate H]. apply Q in H. destruct H as (H & _). apply (H res). reflexivity.
    - (* publish *)
      destruct (s_req s r) as [[k [c|c|c [v|x]|v|x|]]|] eqn:Er; try discriminate St; injection St as <-; exists ck.
      + assert (Sp := v_ended _ _ _ I r k c v Er).
        assert (Hb : s_busy s c = Some r) by (eapply holder; [exact I|exact Er|right; eexists; reflexivity]).
        destruct (v_pend _ _ _ I r _ c Er) as [Lc Kc]; [right; right; eexists; reflexivity|]. cbn [q_key] in Kc.
        eapply (inv_phase ck tr s _ (EPublish r) r k (Ended c (inl v)) (Got v) I Er); cbn [set_req cleanup s_req s_map s_val s_busy s_next s_pump]; try reflexivity; try discriminate; eauto; try nope.
        * other.
        * intros [[? H]|H]; discriminate H.
        * intros c0 l. who l r; up.
          -- split; [|intros (q & H & Hh); injection H as <-; destruct Hh as [H|[? H]]; discriminate H].
             who c0 c; up; [discriminate|]. intros H. apply (v_busy _ _ _ I) in H. destruct H as (q & H & Hh). rewrite Er in H. injection H as <-.
             destruct Hh as [H|[? H]]; [discriminate H|]. cbn in H. injection H as H _. congruence.
          -- who c0 c; up; [|apply (v_busy _ _ _ I)]. split; [discriminate|]. intros H. apply (v_busy _ _ _ I) in H. congruence.
        * intros c0 v0 H. who c0 c; up; [reflexivity|]. eapply (v_once _ _ _ I), H.
        * intros c0 H. rewrite upd_other by lia. apply (v_new _ _ _ I). exact H.
        * intros c0 v0 H. who c0 c; up; [|left; exact H]. injection H as <-. right.
          eapply (sup_phase ck tr s _ (EPublish r) r k (Ended c (inl v)) (Got v) Er); cbn [set_req cleanup s_req s_map s_val s_busy s_next s_pump]; try reflexivity; try discriminate; eauto; try nope.
          -- other.
          -- intros [[? H]|H]; discriminate H.
        * intros x H. destruct (v_pump _ _ _ I r x H) as ([v0 A] & B & C). split; [exists v0; apply keep_snoc; auto|]. split.
          -- intros N H'. apply drop_snoc in H'. destruct H' as [H'|H']; [apply (B N H')|discriminate].
          -- intros res H'. apply end_snoc in H'. destruct H' as [H'|H']; [apply (C res H')|discriminate].
        * intros v0 H. injection H as <-. exists r. split; [apply (in_claim _ _ _ _ _ I Er)|].
          destruct Sp as (_ & Y & _ & T & _). split; [exact Y|]. apply (T r _ Er). right. right. eexists. reflexivity.
      + assert (Hb : s_busy s c = Some r) by (eapply holder; [exact I|exact Er|right; eexists; reflexivity]).
        eapply (inv_phase ck tr s _ (EPublish r) r k (Ended c (inr x)) (Failed x) I Er); cbn [set_req cleanup s_req s_map s_val s_busy s_next s_pump]; try reflexivity; try discriminate; eauto; try nope.
        * other.
        * intros [[? H]|H]; discriminate H.
        * intros c0 l. who l r; up.
          -- split; [|intros (q & H & Hh); injection H as <-; destruct Hh as [H|[? H]]; discriminate H].
             who c0 c; up; [discriminate|]. intros H. apply (v_busy _ _ _ I) in H. destruct H as (q & H & Hh). rewrite Er in H. injection H as <-.
             destruct Hh as [H|[? H]]; [discriminate H|]. cbn in H. injection H as H _. congruence.
          -- who c0 c; up; [|apply (v_busy _ _ _ I)]. split; [discriminate|]. intros H. apply (v_busy _ _ _ I) in H. congruence.
        * intros c0 v0 H. who c0 c; up; [reflexivity|]. eapply (v_once _ _ _ I), H.
        * apply (v_new _ _ _ I).
        * intros y H. destruct (v_pump _ _ _ I r y H) as ([v0 A] & B & C). split; [exists v0; apply keep_snoc; auto|]. split.
          -- intros N H'. apply drop_snoc in H'. destruct H' as [H'|H']; [apply (B N H')|discriminate].
          -- intros res H'. apply end_snoc in H'. destruct H' as [H'|H']; [apply (C res H')|discriminate].
        * intros y [H|[? H]]; [|discriminate H]. injection H as <-. apply end_snoc. left. eapply (v_failing _ _ _ I), Er.
    - (* join *)
      destruct (s_req s r) as [[k [c|c|c res|v|x|]]|] eqn:Er; try discriminate St.
      destruct (s_val s c) as [v|] eqn:Ev; [|discriminate St]. injection St as <-. exists ck.
      destruct (v_early _ _ _ I r _ Er) as [Q Pp]; [left; eexists; reflexivity|].
      destruct (v_pend _ _ _ I r _ c Er) as [Lc Kc]; [left; reflexivity|]. cbn [q_key] in Kc.
      eapply (inv_phase ck tr s _ (EJoin r) r k (Waiting c) (Got v) I Er); cbn [set_req cleanup s_req s_map s_val s_busy s_next s_pump]; try reflexivity; try discriminate; eauto; try nope.
      + other.
      + intros [[? H]|H]; discriminate H.
      + intros c0 l. rewrite (v_busy _ _ _ I). who l r; up; [|reflexivity]. split; intros (q & H & Hh).
        * rewrite Er in H. injection H as <-. destruct Hh as [H|[? H]]; discriminate H.
        * injection H as <-. destruct Hh as [H|[? H]]; discriminate H.
      + apply (v_once _ _ _ I).
      + apply (v_new _ _ _ I).
      + intros v0 H. injection H as <-. destruct (v_val _ _ _ I c v Ev) as (l & A & Y & _ & T & _). exists l. rewrite Kc in A. split; [exact A|]. split; [exact Y|].
        apply (T r _ Er). left. reflexivity.
    - (* cancel *)
      destruct (s_req s r) as [[k [c|c|c res|v|x|]]|] eqn:Er; try discriminate St; injection St as <-; exists ck.
      + destruct (v_early _ _ _ I r _ Er) as [Q Pp]; [left; eexists; reflexivity|].
        eapply (inv_phase ck tr s _ (ECancel r) r k (Waiting c) Gone I Er); cbn [set_req cleanup s_req s_map s_val s_busy s_next s_pump]; try reflexivity; try discriminate; eauto; try nope.
        * other.
        * intros [[? H]|H]; discriminate H.
        * intros c0 l. rewrite (v_busy _ _ _ I). who l r; up; [|reflexivity]. split; intros (q & H & Hh).
          -- rewrite Er in H. injection H as <-. destruct Hh as [H|[? H]]; discriminate H.
          -- injection H as <-. destruct Hh as [H|[? H]]; discriminate H.
        * apply (v_once _ _ _ I).
        * apply (v_new _ _ _ I).
      + destruct (v_early _ _ _ I r _ Er) as [Q Pp]; [right; eexists; reflexivity|].
        assert (Hb : s_busy s c = Some r) by (eapply holder; [exact I|exact Er|left; reflexivity]).
        eapply (inv_phase ck tr s _ (ECancel r) r k (Running c) Gone I Er); cbn [set_req cleanup s_req s_map s_val s_busy s_next s_pump]; try reflexivity; try discriminate; eauto; try nope.
        * intros k0 c0 H. destruct (N.eq_dec k0 k) as [->|]; up; [discriminate H|exact H].
        * other.
        * intros [[? H]|H]; discriminate H.
        * intros c0 l. who l r; up.
          -- split; [|intros (q & H & Hh); injection H as <-; destruct Hh as [H|[? H]]; discriminate H].
             who c0 c; up; [discriminate|]. intros H. apply (v_busy _ _ _ I) in H. destruct H as (q & H & Hh). rewrite Er in H. injection H as <-.
             destruct Hh as [H|[? H]]; [|discriminate H]. cbn in H. injection H as H. congruence.
          -- who c0 c; up; [|apply (v_busy _ _ _ I)]. split; [discriminate|]. intros H. apply (v_busy _ _ _ I) in H. congruence.
        * intros c0 v0 H. who c0 c; up; [reflexivity|]. eapply (v_once _ _ _ I), H.
        * apply (v_new _ _ _ I).
    - (* stop *)
      destruct (s_pump s r) as [[| |]|] eqn:Epm; try discriminate St. injection St as <-. exists ck.
      destruct (s_req s r) as [[k p]|] eqn:Er; [|destruct (v_none _ _ _ I r Er); congruence].
      assert (Ne : ~ before_end p). { intros B. destruct (v_early _ _ _ I r _ Er B). congruence. }
      eapply (inv_phase ck tr s _ (EStop r) r k p p I Er); cbn [s_req s_map s_val s_busy s_next s_pump]; try reflexivity; try discriminate; eauto.
      + intros r0. who r0 r; up; congruence.
      + other.
      + intros [[? H]|H]; discriminate H.
      + intros l N. up. reflexivity.
      + intros x _. up. eauto.
      + apply (v_busy _ _ _ I).
      + apply (v_once _ _ _ I).
      + apply (v_new _ _ _ I).
      + intros c v ->. assert (Sp := v_ended _ _ _ I r k c v Er).
        eapply (sup_phase ck tr s _ (EStop r) r k _ _ Er); cbn [s_req s_map s_val s_busy s_next s_pump]; try reflexivity; try discriminate; eauto.
        * intros r0. who r0 r; up; [exact Er|reflexivity].
        * other.
        * intros [[? H]|H]; discriminate H.
        * intros l N. up. reflexivity.
        * intros x _. up. eauto.
      + intros B. destruct (Ne B).
      + intros x H. up. injection H as <-. destruct (v_pump _ _ _ I r _ Epm) as ([v A] & B & C). split; [exists v; apply keep_snoc; auto|]. split.
        * intros _ H'. apply drop_snoc in H'. destruct H' as [H'|H']; [|discriminate]. revert H'. apply B. discriminate.
        * intros res H'. apply end_snoc in H'. destruct H' as [H'|H']; [apply (C res H')|discriminate].
      + intros v ->. eapply (v_got _ _ _ I), Er.
      + intros x [->|[c ->]]; apply end_snoc; left; [eapply (v_failed _ _ _ I), Er|eapply (v_failing _ _ _ I), Er].
    - (* drop *)
      destruct (s_pump s r) as [[| |]|] eqn:Epm; try discriminate St.
      destruct (s_req s r) as [[k p]|] eqn:Er; [|discriminate St]. injection St as <-. exists ck. cbn [q_key].
      assert (Ne : ~ before_end p). { intros B. destruct (v_early _ _ _ I r _ Er B). congruence. }
      eapply (inv_phase ck tr s _ (EDrop r) r k p p I Er); cbn [cleanup s_req s_map s_val s_busy s_next s_pump]; try reflexivity; try discriminate; eauto.
      + intros r0. who r0 r; up; congruence.
      + intros k0 c0 H. destruct (N.eq_dec k0 k) as [->|]; up; [discriminate H|exact H].
      + other.
      + intros _. up. reflexivity.
      + intros l N. up. reflexivity.
      + intros x _. up. eauto.
      + apply (v_busy _ _ _ I).
      + apply (v_once _ _ _ I).
      + apply (v_new _ _ _ I).
      + intros c v ->. assert (Sp := v_ended _ _ _ I r k c v Er).
        eapply (sup_phase ck tr s _ (EDrop r) r k _ _ Er); cbn [cleanup s_req s_map s_val s_busy s_next s_pump]; try reflexivity; try discriminate; eauto.
        * intros r0. who r0 r; up; [exact Er|reflexivity].
        * intros k0 c0 H. destruct (N.eq_dec k0 k) as [->|]; up; [discriminate H|exact H].
        * other.
        * intros _. up. reflexivity.
        * intros l N. up. reflexivity.
        * intros x _. up. eauto.
      + intros B. destruct (Ne B).
      + intros x H. up. injection H as <-. destruct (v_pump _ _ _ I r _ Epm) as ([v A] & B & C). split; [exists v; apply keep_snoc; auto|]. split.
        * intros N. destruct (N eq_refl).
        * intros res H'. apply end_snoc in H'. destruct H' as [H'|H']; [apply (C res H')|discriminate].
      + intros v ->. eapply (v_got _ _ _ I), Er.
      + intros x [->|[c ->]]; apply end_snoc; left; [eapply (v_failed _ _ _ I), Er|eapply (v_failing _ _ _ I), Er].
  Qed.

  Lemma inv_exec tr : forall s, exec init tr = Some s -> exists ck, inv ck tr s.
  Proof.
    induction tr as [|e tr IH] using rev_ind; intros s H.
    - injection H as <-. exists (fun _ => 0%N). apply inv_init.
    - rewrite exec_snoc in H. destruct (exec init tr) as [s0|] eqn:E0; [|discriminate H].
      destruct (IH s0 eq_refl) as [ck I]. eapply inv_step; eassumption.
  Qed.

  (** ** The theorems *)
  Lemma shared_in_time tr s r k v : exec init tr = Some s -> s_req s r = Some (mkreq k (Got v)) ->
    exists l, In (EClaim l k) tr /\ yielded l v tr /\ in_time r l tr.
  Proof. intros H Er. destruct (inv_exec tr s H) as [ck I]. eapply (v_got _ _ _ I), Er. Qed.
  Lemma plain_in_time tr s r k v : exec init tr = Some s -> s_req s r = Some (mkreq k (Got v)) ->
    (forall l v, ~ In (EEndKeep l v) tr) ->
    exists l pre post, tr = pre ++ EClaim r k :: post /\ In (EClaim l k) tr /\ In (EEnd l (inl v)) post.
  Proof.
    intros H Er N. destruct (inv_exec tr s H) as [ck I]. destruct (v_got _ _ _ I r k v Er) as (l & A & Y & T).
    assert (C : In (EClaim r k) tr) by (apply (v_claim _ _ _ I); exists (mkreq k (Got v)); auto).
    apply in_split in C. destruct C as (pre & post & ->). exists l, pre, post. split; [reflexivity|]. split; [exact A|].
    destruct Y as [Y|Y]; [|destruct (N l v Y)]. apply in_app_iff in Y. destruct Y as [Y|[Y|Y]]; [|discriminate Y|exact Y].
    exfalso. apply (T pre k post eq_refl). left. eauto.
  Qed.
  Lemma own_failure tr s r k e : exec init tr = Some s -> s_req s r = Some (mkreq k (Failed e)) -> In (EEnd r (inr e)) tr.
  Proof. intros H Er. destruct (inv_exec tr s H) as [ck I]. eapply (v_failed _ _ _ I), Er. Qed.
  Lemma one_call tr s c l k l' k' : exec init tr = Some s -> s_req s l = Some (mkreq k (Running c)) ->
    s_req s l' = Some (mkreq k' (Running c)) -> l = l'.
  Proof.
    intros H E1 E2. destruct (inv_exec tr s H) as [ck I].
    assert (A : s_busy s c = Some l) by (eapply holder; [exact I|exact E1|left; reflexivity]).
    assert (B : s_busy s c = Some l') by (eapply holder; [exact I|exact E2|left; reflexivity]). congruence.
  Qed.
  Lemma free_go s r k c : s_req s r = Some (mkreq k (Waiting c)) -> s_busy s c = None -> can_go s r.
  Proof.
    intros Er Eb. unfold can_go. cbn [step]. rewrite Er. destruct (s_val s c) eqn:Ev; [right; discriminate|]. rewrite Eb. left. discriminate.
  Qed.
  Lemma never_stuck tr s r k c : exec init tr = Some s -> s_req s r = Some (mkreq k (Waiting c)) ->
    can_go s r \/
    exists l q, s_req s l = Some q /\
      ((q_phase q = Running c /\ (forall res, step s (EEnd l res) <> None) /\
        forall s', step s (ECancel l) = Some s' -> can_go s' r) \/
       (exists res, q_phase q = Ended c res /\ exists s', step s (EPublish l) = Some s' /\ can_go s' r)).
  Proof.
    intros H Er. destruct (inv_exec tr s H) as [ck I].
    destruct (s_busy s c) as [l|] eqn:Eb; [|left; eapply free_go; eassumption]. right.
    assert (B := Eb). apply (v_busy _ _ _ I) in B. destruct B as (q & Eq & Hh). exists l, q. split; [exact Eq|].
    assert (Nl : r <> l). { intros ->. rewrite Er in Eq. injection Eq as <-. destruct Hh as [Hh|[? Hh]]; discriminate Hh. }
    destruct q as [k' p]. cbn [q_phase] in *. destruct Hh as [->|[res ->]].
    - left. split; [reflexivity|]. cbn [step]. rewrite Eq. split; [discriminate|]. intros s' Es. injection Es as <-.
      eapply (free_go _ r k c); cbn [set_req cleanup s_req s_busy]; up; [exact Er|reflexivity].
    - right. exists res. split; [reflexivity|]. cbn [step]. rewrite Eq. destruct res as [v|e]; eexists; (split; [reflexivity|]);
        eapply (free_go _ r k c); cbn [set_req cleanup s_req s_busy]; up; try exact Er; reflexivity.
  Qed.
End P.
