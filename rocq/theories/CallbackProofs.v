(** Proofs about subscriptions over HTTP callbacks. *)
From Coq Require Import String List Bool Arith NArith Lia.
From Verif Require Import CallbackModel CallbackSpec.
Import ListNotations.
Local Open Scope string_scope.
Local Open Scope list_scope.

Section Proofs.
  Variables P E R : Type.
  Variable decode : P -> option R.
  Variable gone : E.
  Variable deadline : N.
  Notation step := (step decode gone deadline).
  Notation exec := (exec decode gone deadline).
  Notation state := (state P E).
  Notation label := (label P E R).
  Notation event := (event P E).

  Lemma upd_same {A} (m : string -> option A) k v : upd m k v k = v.
  Proof. unfold upd. rewrite String.eqb_refl. reflexivity. Qed.
  Lemma upd_other {A} (m : string -> option A) k v k' : k <> k' -> upd m k v k' = m k'.
  Proof. intros N. unfold upd. destruct (String.eqb_spec k k'); [contradiction | reflexivity]. Qed.
  Lemma exec_snoc l e : forall s, exec s (l ++ [e]) = let '(s1, a) := exec s l in let '(s2, b) := step s1 e in (s2, a ++ b).
  Proof.
    induction l as [|x l IH]; intros s; cbn [app CallbackModel.exec].
    - destruct (step s e) as (s2, b). rewrite app_nil_r. reflexivity.
    - destruct (step s x) as (s1, a). rewrite IH. destruct (exec s1 l) as (s2, b). destruct (step s2 e) as (s3, c). rewrite app_assoc. reflexivity.
  Qed.
  Lemma sent_app id (a b : list label) : sent P E R id (a ++ b) = sent P E R id a ++ sent P E R id b.
  Proof. apply flat_map_app. Qed.
  Lemma yields_app id (a b : list label) : yields P E R id (a ++ b) = yields P E R id a ++ yields P E R id b.
  Proof. apply flat_map_app. Qed.
  Lemma opened_app (a b : list event) : opened P E (a ++ b) = opened P E a ++ opened P E b.
  Proof. apply flat_map_app. Qed.
  Lemma shown_app l ys b : shown P E R decode l ys b -> b = false -> forall m zs c, shown P E R decode m zs c -> shown P E R decode (l ++ m) (ys ++ zs) c.
  Proof. induction 1; intros F m zs c X; try discriminate; cbn; [exact X | constructor; auto]. Qed.

  Definition alive (ph : phase) : Prop := ph = Asking \/ ph = Streaming.
  Inductive effect (id : string) (s s' : state) (l : list label) : Prop :=
  | ef_same : streams s' id = streams s id -> (entries s id = None -> entries s' id = None) -> sent P E R id l = [] -> yields P E R id l = [] -> effect id s s' l
  | ef_sent m ph q : streams s id = Some (mkstream ph q) -> alive ph -> length q < capacity -> streams s' id = Some (mkstream ph (q ++ [m])) ->
      sent P E R id l = [m] -> yields P E R id l = [] -> effect id s s' l
  | ef_open q : streams s id = Some (mkstream Asking q) -> streams s' id = Some (mkstream Streaming q) -> sent P E R id l = [] -> yields P E R id l = [] -> effect id s s' l
  | ef_end x : streams s id = Some x -> streams s' id = Some (mkstream Ended []) -> entries s' id = None -> sent P E R id l = [] -> yields P E R id l = [] -> effect id s s' l
  | ef_left x : streams s id = Some x -> streams s' id = Some (mkstream Left []) -> sent P E R id l = [] -> yields P E R id l = [] -> effect id s s' l
  | ef_take p r q : streams s id = Some (mkstream Streaming (Next p :: q)) -> decode p = Some r -> streams s' id = Some (mkstream Streaming q) ->
      sent P E R id l = [] -> yields P E R id l = [Event r] -> effect id s s' l
  | ef_last m q ys : streams s id = Some (mkstream Streaming (m :: q)) -> shown P E R decode [m] ys true -> streams s' id = Some (mkstream Ended []) -> entries s' id = None ->
      sent P E R id l = [] -> yields P E R id l = ys -> effect id s s' l.

  Lemma send_cases id0 m s s' (l : label) : try_send id0 m s = (s', l) ->
    entries s' = entries s /\ doomed s' = doomed s /\ late s' = late s /\ now s' = now s /\
    ((s' = s /\ (l = LFull id0 m \/ l = LClosed id0)) \/
     exists ph q, streams s id0 = Some (mkstream ph q) /\ alive ph /\ length q < capacity /\ s' = set_stream id0 (mkstream ph (q ++ [m])) s /\ l = LSent id0 m).
  Proof.
    unfold try_send. intros X. destruct (streams s id0) as [[ph q]|] eqn:S; [destruct ph|]; try (injection X as <- <-; repeat split; auto; fail).
    all: destruct (Nat.ltb_spec (length q) capacity); injection X as <- <-; repeat split; auto; right; eexists _, q; repeat split; auto; unfold alive; auto.
  Qed.
  Ltac same := apply ef_same; cbn; auto.
  Lemma send_effect id id0 m s s' s2 (l : label) r : try_send id0 m s = (s', l) -> streams s2 = streams s' -> (entries s' id = None -> entries s2 id = None) ->
    (forall x, In x r -> match x with LReply _ | LEvicted _ => True | _ => False end) -> forall r', (r' = l :: r \/ r' = r ++ [l]) -> effect id s s2 r'.
  Proof.
    intros X S2 E2 Q r' Hr.
    assert (Sr : sent P E R id r = [] /\ yields P E R id r = []).
    { clear -Q. induction r as [|x r IH]; [split; reflexivity|]. destruct (IH (fun y Y => Q y (or_intror Y))) as (A & B). specialize (Q x (or_introl eq_refl)).
      destruct x; try contradiction; split; assumption. }
    assert (Sl : sent P E R id r' = sent P E R id [l] /\ yields P E R id r' = yields P E R id [l]).
    { destruct Sr as (A & B). destruct Hr as [->| ->].
      - change (l :: r) with ([l] ++ r). rewrite sent_app, yields_app, A, B, !app_nil_r. auto.
      - rewrite sent_app, yields_app, A, B. auto. }
    destruct Sl as (Sa & Sb). destruct (send_cases _ _ _ _ _ X) as (Ee & _ & _ & _ & [(-> & L)|(ph & q & S & A & C & -> & ->)]).
    - apply ef_same; [rewrite S2; reflexivity | exact E2 | rewrite Sa | rewrite Sb]; destruct L as [-> | ->]; reflexivity.
    - destruct (String.eqb_spec id id0) as [<-|N].
      + apply ef_sent with (m := m) (ph := ph) (q := q); auto.
        * rewrite S2. apply upd_same.
        * rewrite Sa. cbn. rewrite String.eqb_refl. reflexivity.
      + apply ef_same; [| | rewrite Sa; cbn; destruct (String.eqb_spec id id0); [contradiction | reflexivity] | rewrite Sb; reflexivity].
        * rewrite S2. apply upd_other. congruence.
        * rewrite <- Ee. exact E2.
  Qed.
  Lemma finish_entries (s : state) id0 id : entries s id = None -> entries (finish id0 s) id = None.
  Proof. intros H. cbn. unfold upd. destruct (String.eqb id0 id); auto. Qed.
  Lemma finish_effect id id0 (s : state) l x : streams s id0 = Some x -> sent P E R id l = [] -> (id0 <> id -> yields P E R id l = []) ->
    (yields P E R id0 l = [] \/ exists m q, streams s id0 = Some (mkstream Streaming (m :: q)) /\ shown P E R decode [m] (yields P E R id0 l) true) -> effect id s (finish id0 s) l.
  Proof.
    intros S A B C. destruct (String.eqb_spec id0 id) as [->|N].
    - destruct C as [C|(m & q & S' & C)].
      + apply ef_end with (x := x); auto; cbn; apply upd_same.
      + apply ef_last with (m := m) (q := q) (ys := yields P E R id l); auto; cbn; apply upd_same.
    - apply ef_same; [cbn; apply upd_other; exact N | apply finish_entries | exact A | exact (B N)].
  Qed.
  Lemma step_effect id s e s' l : (forall i v, e <> Subscribe i v) -> step s e = (s', l) -> effect id s s' l.
  Proof.
    intros NS X. destruct e as [n|i v|i ok|i|i|i|h p b|i|i|i]; cbn in X.
    - injection X as <- <-. same.
    - destruct (NS i v eq_refl).
    - destruct (streams s i) as [[ph q]|] eqn:S; [destruct ph|]; try (injection X as <- <-; same; fail). injection X as <- <-. destruct ok.
      + destruct (String.eqb_spec i id) as [->|N]; [apply ef_open with (q := q); cbn; auto; apply upd_same | apply ef_same; cbn; auto; apply upd_other; exact N].
      + eapply finish_effect; eauto.
    - unfold receive in X. destruct (streams s i) as [[ph q]|] eqn:S; [destruct ph|]; try (injection X as <- <-; same; fail). destruct q as [|[p|er] q].
      + destruct (entries s i) eqn:En; injection X as <- <-; [same | eapply finish_effect; eauto].
      + destruct (decode p) as [r|] eqn:D; injection X as <- <-.
        * destruct (String.eqb_spec id i) as [->|N].
          -- apply ef_take with (p := p) (r := r) (q := q); cbn; auto; [apply upd_same | rewrite String.eqb_refl; reflexivity].
          -- apply ef_same; cbn; auto; [apply upd_other; congruence | destruct (String.eqb_spec id i); [contradiction | reflexivity]].
        * eapply finish_effect; eauto.
          -- intros N. cbn. destruct (String.eqb_spec id i); [congruence | reflexivity].
          -- right. exists (Next p), q. split; [exact S|]. cbn. rewrite String.eqb_refl. cbn. constructor. exact D.
      + injection X as <- <-. eapply finish_effect; eauto.
        * destruct er as [[|x l]|]; reflexivity.
        * intros N. destruct er as [[|x l]|]; try reflexivity. cbn. destruct (String.eqb_spec id i); [congruence | reflexivity].
        * right. exists (Complete er), q. split; [exact S|]. destruct er as [[|x l]|]; cbn; [apply shown_quiet; auto | | apply shown_quiet; auto].
          rewrite String.eqb_refl. cbn. apply shown_errors. discriminate.
    - destruct (streams s i) as [[ph q]|] eqn:S; [destruct ph|]; try (injection X as <- <-; same; fail); injection X as <- <-.
      all: destruct (String.eqb_spec i id) as [->|N]; [eapply ef_left; cbn; eauto; apply upd_same | apply ef_same; cbn; auto; apply upd_other; exact N].
    - destruct (streams s i) as [[ph q]|] eqn:S; [destruct ph|]; try (injection X as <- <-; same; fail); injection X as <- <-. eapply finish_effect; eauto.
    - unfold post in X. destruct h; cbn in X; [|injection X as <- <-; same]. destruct b as [b|]; [|injection X as <- <-; same].
      destruct (String.eqb_spec (b_id b) p); cbn in X; [|injection X as <- <-; same]. destruct (entries s (b_id b)) as [en|] eqn:En; [|injection X as <- <-; same].
      destruct (String.eqb_spec (e_verifier en) (b_verifier b)); cbn in X; [|injection X as <- <-; same]. destruct (b_action b).
      + injection X as <- <-. apply ef_same; cbn; auto. unfold upd. destruct (String.eqb_spec (b_id b) id) as [<-|]; [congruence | auto].
      + unfold handle_next in X. destruct (b_payload b) as [pl|]; [|injection X as <- <-; same]. destruct (try_send (b_id b) (Next pl) s) as (s1, l1) eqn:T.
        destruct l1; injection X as <- <-; (eapply send_effect; [exact T | reflexivity | auto | | left; reflexivity]); intros ? [<-|[]]; exact I.
      + destruct (try_send (b_id b) (Complete (b_errors b)) s) as (s1, l1) eqn:T. injection X as <- <-.
        eapply send_effect; [exact T | reflexivity | auto | | left; reflexivity]; intros ? [<-|[]]; exact I.
    - destruct (existsb (String.eqb i) (doomed s)); injection X as <- <-; [|same]. apply ef_same; cbn; auto. unfold upd. destruct (String.eqb i id); auto.
    - destruct (entries s i); [|injection X as <- <-; same]. destruct (N.ltb _ _); injection X as <- <-; same.
    - destruct (existsb (String.eqb i) (late s)); [|injection X as <- <-; same]. destruct (entries s i) eqn:En; [|injection X as <- <-; same].
      match type of X with (let '(_, _) := try_send _ _ ?st in _) = _ => set (st0 := st) in X end.
      destruct (try_send i (Complete (Some [gone])) st0) as (s1, l1) eqn:T. injection X as <- <-.
      assert (F : effect id st0 s1 [LEvicted i; l1]).
      { eapply send_effect with (r := [LEvicted i]); [exact T | reflexivity | auto | intros ? [<-|[]]; exact I | right; reflexivity]. }
      assert (S0 : streams st0 = streams s) by reflexivity.
      assert (E0 : entries s id = None -> entries st0 id = None) by (intros Z; cbn; unfold upd; destruct (String.eqb i id); auto).
      destruct F; rewrite S0 in *; [apply ef_same; auto | eapply ef_sent; eauto | eapply ef_open; eauto | eapply ef_end; eauto | eapply ef_left; eauto | eapply ef_take; eauto | eapply ef_last; eauto].
  Qed.

  Definition inv (id : string) (h : list event) (s : state) (tr : list label) : Prop :=
    match streams s id with
    | None => ~ In id (opened P E h) /\ entries s id = None /\ sent P E R id tr = [] /\ yields P E R id tr = []
    | Some x => In id (opened P E h) /\ length (s_queue x) <= capacity /\ (s_phase x = Ended -> entries s id = None) /\
        exists c r b, sent P E R id tr = c ++ r /\ shown P E R decode c (yields P E R id tr) b /\ (alive (s_phase x) -> r = s_queue x /\ b = false)
    end.
  Lemma opened_snoc h (e : event) id : In id (opened P E (h ++ [e])) <-> In id (opened P E h) \/ exists v, e = Subscribe id v.
  Proof.
    rewrite opened_app, in_app_iff. split; intros [H|H]; auto.
    - right. destruct e; cbn in H; try contradiction. destruct H as [->|[]]. eauto.
    - right. destruct H as (v & ->). left. reflexivity.
  Qed.
  Lemma nodup_left {A} (a b : list A) : NoDup (a ++ b) -> NoDup a.
  Proof. induction a as [|x a IH]; intros N; [constructor|]. inversion N; subst. constructor; [rewrite in_app_iff in *; tauto | auto]. Qed.
  Lemma fresh_snoc h (e : event) : fresh P E (h ++ [e]) -> fresh P E h /\ forall i v, e = Subscribe i v -> ~ In i (opened P E h).
  Proof.
    unfold fresh. rewrite opened_app. intros N. split.
    - exact (nodup_left _ _ N).
    - intros i v -> I. cbn in N. apply NoDup_remove_2 in N. rewrite app_nil_r in N. contradiction.
  Qed.
  Lemma inv_step id h s tr e s' l : inv id h s tr -> fresh P E (h ++ [e]) -> step s e = (s', l) -> inv id (h ++ [e]) s' (tr ++ l).
  Proof.
    intros V F X. destruct (fresh_snoc _ _ F) as (_ & Nw). assert (D : (exists i v, e = Subscribe i v) \/ forall i v, e <> Subscribe i v).
    { destruct e; try (right; intros; discriminate). left. eauto. }
    destruct D as [(i & v & ->)|NS].
    - cbn in X. injection X as <- <-. rewrite app_nil_r. specialize (Nw i v eq_refl). unfold inv in *. cbn. unfold upd.
      destruct (String.eqb_spec i id) as [->|N].
      + destruct (streams s id) as [x|]; [destruct V as (V & _); contradiction|]. destruct V as (_ & _ & A & B). cbn. split; [apply opened_snoc; eauto|].
        split; [lia|]. split; [discriminate|]. exists [], [], false. rewrite A, B. repeat split; auto. constructor.
      + destruct (streams s id) as [x|].
        * destruct V as (V & W). split; [apply opened_snoc; auto | exact W].
        * destruct V as (V & W). split; [|exact W]. rewrite opened_snoc. intros [Y|(w & Y)]; [contradiction|]. congruence.
    - assert (O : In id (opened P E (h ++ [e])) <-> In id (opened P E h)).
      { rewrite opened_snoc. split; [intros [Y|(v & Y)]; [exact Y | destruct (NS _ _ Y)] | auto]. }
      pose proof (step_effect id s e s' l NS X) as Ef. unfold inv in *.
      destruct Ef as [S En A B|m ph q S Al L S' A B|q S S' A B|x S S' En A B|x S S' A B|p r q S D S' A B|m q ys S Sh S' En A B].
      + rewrite S. destruct (streams s id) as [x|]; rewrite sent_app, yields_app, A, B, !app_nil_r, O.
        * destruct V as (V1 & V2 & V3 & V4). repeat split; auto.
        * destruct V as (V1 & V2 & V3 & V4). repeat split; auto.
      + rewrite S' in *. rewrite S in V. rewrite sent_app, yields_app, A, B, !app_nil_r, O. destruct V as (V1 & V2 & V3 & c & r & b & V4 & V5 & V6). cbn in *.
        split; [exact V1|]. split; [rewrite app_length; cbn; unfold capacity in *; lia|]. split; [intros ->; destruct Al; discriminate|].
        destruct (V6 Al) as (-> & ->). exists c, (q ++ [m]), false. rewrite V4, app_assoc. auto.
      + rewrite S' in *. rewrite S in V. rewrite sent_app, yields_app, A, B, !app_nil_r, O. destruct V as (V1 & V2 & V3 & c & r & b & V4 & V5 & V6). cbn in *.
        repeat split; auto; [discriminate|]. destruct (V6 (or_introl eq_refl)) as (-> & ->). exists c, q, false. auto.
      + rewrite S' in *. rewrite S in V. rewrite sent_app, yields_app, A, B, !app_nil_r, O. destruct V as (V1 & V2 & V3 & c & r & b & V4 & V5 & V6). cbn.
        repeat split; auto; [lia|]. exists c, r, b. repeat split; auto; destruct H as [H|H]; discriminate.
      + rewrite S' in *. rewrite S in V. rewrite sent_app, yields_app, A, B, !app_nil_r, O. destruct V as (V1 & V2 & V3 & c & r & b & V4 & V5 & V6). cbn.
        repeat split; auto; [lia | discriminate|]. exists c, r, b. repeat split; auto; destruct H as [H|H]; discriminate.
      + rewrite S' in *. rewrite S in V. rewrite sent_app, yields_app, A, B, ?app_nil_r, O. destruct V as (V1 & V2 & V3 & c & r0 & b & V4 & V5 & V6). cbn in *.
        destruct (V6 (or_intror eq_refl)) as (-> & ->). split; [exact V1|]. split; [lia|]. split; [discriminate|]. exists (c ++ [Next p]), q, false.
        split; [rewrite V4, <- app_assoc; reflexivity|]. split; [|auto]. apply (shown_app _ _ _ V5 eq_refl). constructor; [exact D | constructor].
      + rewrite S' in *. rewrite S in V. rewrite sent_app, yields_app, A, B, ?app_nil_r, O. destruct V as (V1 & V2 & V3 & c & r0 & b & V4 & V5 & V6). cbn in *.
        destruct (V6 (or_intror eq_refl)) as (-> & ->). split; [exact V1|]. split; [lia|]. split; [auto|]. exists (c ++ [m]), q, true.
        split; [rewrite V4, <- app_assoc; reflexivity|]. split; [|intros [H|H]; discriminate]. apply (shown_app _ _ _ V5 eq_refl). exact Sh.
  Qed.
  Lemma inv_exec id h : fresh P E h -> forall s tr, exec start h = (s, tr) -> inv id h s tr.
  Proof.
    induction h as [|e h IH] using rev_ind; intros F s tr X.
    - cbn in X. injection X as <- <-. cbn. repeat split; auto.
    - rewrite exec_snoc in X. destruct (exec start h) as (s1, a) eqn:E1. destruct (step s1 e) as (s2, b) eqn:E2. injection X as <- <-.
      eapply inv_step; [apply IH; [apply (fresh_snoc _ _ F) | reflexivity] | exact F | exact E2].
  Qed.
  Lemma delivered h s tr : fresh P E h -> exec start h = (s, tr) -> forall id, exists c r b,
    sent P E R id tr = c ++ r /\ shown P E R decode c (yields P E R id tr) b /\
    forall q, streams s id = Some (mkstream Streaming q) -> r = q /\ b = false.
  Proof.
    intros F X id. pose proof (inv_exec id h F s tr X) as V. unfold inv in V. destruct (streams s id) as [x|] eqn:S.
    - destruct V as (_ & _ & _ & c & r & b & A & B & C). exists c, r, b. repeat split; auto; injection H as ->; apply C; right; reflexivity.
    - destruct V as (_ & _ & A & B). exists [], [], false. rewrite A, B. split; [reflexivity|]. split; [constructor|]. intros q H. discriminate H.
  Qed.
  Lemma bounded h s tr : fresh P E h -> exec start h = (s, tr) -> forall id x, streams s id = Some x -> length (s_queue x) <= 16.
  Proof. intros F X id x S. pose proof (inv_exec id h F s tr X) as V. unfold inv in V. rewrite S in V. apply V. Qed.
  Lemma registered h s tr : fresh P E h -> exec start h = (s, tr) -> forall id e, entries s id = Some e ->
    exists x, streams s id = Some x /\ s_phase x <> Ended.
  Proof.
    intros F X id e En. pose proof (inv_exec id h F s tr X) as V. unfold inv in V. destruct (streams s id) as [x|].
    - exists x. split; [reflexivity|]. intros Y. destruct V as (_ & _ & V & _). rewrite (V Y) in En. discriminate.
    - destruct V as (_ & V & _). congruence.
  Qed.

  (** ** Who sends *)
  Definition owned (h : list event) (s : state) : Prop := forall id e, entries s id = Some e -> In (Subscribe id (e_verifier e)) h.
  Lemma send_entries id0 m s s' (l : label) : try_send id0 m s = (s', l) -> entries s' = entries s.
  Proof. intros X. apply (send_cases _ _ _ _ _ X). Qed.
  Lemma upd_none {A} (m : string -> option A) k k' x : upd m k None k' = Some x -> m k' = Some x.
  Proof. unfold upd. destruct (String.eqb k k'); [discriminate | auto]. Qed.
  Lemma step_entries s e s' l id x : step s e = (s', l) -> entries s' id = Some x ->
    e = Subscribe id (e_verifier x) \/ exists y, entries s id = Some y /\ e_verifier y = e_verifier x /\ e_created y = e_created x /\
      (e_beat x = e_beat y \/ e_beat x = Some (now s)).
  Proof.
    intros X En.
    assert (K : forall z, entries s id = Some z -> z = x -> exists y, entries s id = Some y /\ e_verifier y = e_verifier x /\ e_created y = e_created x /\ (e_beat x = e_beat y \/ e_beat x = Some (now s))).
    { intros z Z ->. exists x. auto. }
    destruct e as [n|i v|i ok|i|i|i|h p b|i|i|i]; cbn in X.
    - injection X as <- <-. eauto.
    - injection X as <- <-. cbn in En. unfold upd in En. destruct (String.eqb_spec i id) as [->|]; [injection En as <-; auto | eauto].
    - destruct (streams s i) as [[ph q]|]; [destruct ph|]; try (injection X as <- <-; eauto; fail). injection X as <- <-. destruct ok; cbn in En; [eauto | apply upd_none in En; eauto].
    - unfold receive in X. destruct (streams s i) as [[ph q]|]; [destruct ph|]; try (injection X as <- <-; eauto; fail). destruct q as [|[p|er] q].
      + destruct (entries s i); injection X as <- <-; [eauto | apply upd_none in En; eauto].
      + destruct (decode p); injection X as <- <-; [eauto | apply upd_none in En; eauto].
      + injection X as <- <-. apply upd_none in En. eauto.
    - destruct (streams s i) as [[ph q]|]; [destruct ph|]; injection X as <- <-; eauto.
    - destruct (streams s i) as [[ph q]|]; [destruct ph|]; injection X as <- <-; eauto. apply upd_none in En. eauto.
    - unfold post in X. destruct h; cbn in X; [|injection X as <- <-; eauto]. destruct b as [b|]; [|injection X as <- <-; eauto].
      destruct (String.eqb_spec (b_id b) p); cbn in X; [|injection X as <- <-; eauto]. destruct (entries s (b_id b)) as [en|] eqn:Eb; [|injection X as <- <-; eauto].
      destruct (String.eqb_spec (e_verifier en) (b_verifier b)); cbn in X; [|injection X as <- <-; eauto]. destruct (b_action b).
      + injection X as <- <-. cbn in En. unfold upd in En. destruct (String.eqb_spec (b_id b) id) as [<-|]; [|eauto]. injection En as <-. right. exists en. cbn. auto.
      + unfold handle_next in X. destruct (b_payload b); [|injection X as <- <-; eauto]. destruct (try_send _ _ s) as (s1, l1) eqn:T.
        apply send_entries in T. destruct l1; injection X as <- <-; cbn in En; rewrite T in En; eauto.
      + destruct (try_send _ _ s) as (s1, l1) eqn:T. apply send_entries in T. injection X as <- <-. cbn in En. rewrite T in En. eauto.
    - destruct (existsb _ _); injection X as <- <-; [apply upd_none in En|]; eauto.
    - destruct (entries s i); [destruct (N.ltb _ _)|]; injection X as <- <-; eauto.
    - destruct (existsb _ _); [|injection X as <- <-; eauto]. destruct (entries s i); [|injection X as <- <-; eauto].
      match type of X with (let '(_, _) := ?t in _) = _ => destruct t as (s1, l1) eqn:T end. apply send_entries in T. injection X as <- <-. rewrite T in En. apply upd_none in En. eauto.
  Qed.
  Lemma owned_exec h : forall s tr, exec start h = (s, tr) -> owned h s.
  Proof.
    induction h as [|e h IH] using rev_ind; intros s tr X id x En.
    - cbn in X. injection X as <- <-. discriminate.
    - rewrite exec_snoc in X. destruct (exec start h) as (s1, a) eqn:E1. destruct (step s1 e) as (s2, b) eqn:E2. injection X as <- <-. apply in_app_iff.
      destruct (step_entries _ _ _ _ _ _ E2 En) as [->|(y & Y & <- & _)]; [right; left; reflexivity | left; apply (IH _ _ eq_refl); exact Y].
  Qed.
  Lemma step_sent s e s' l id m : step s e = (s', l) -> In (LSent id m) l ->
    exists x, entries s id = Some x /\ (authentic P E id (e_verifier x) e m \/ e = Evict id /\ m = Complete (Some [gone])).
  Proof.
    intros X I. destruct e as [n|i v|i ok|i|i|i|h p b|i|i|i]; cbn in X.
    1-2: injection X as <- <-; contradiction.
    - destruct (streams s i) as [[ph q]|]; [destruct ph|]; injection X as <- <-; contradiction.
    - unfold receive in X. destruct (streams s i) as [[ph q]|]; [destruct ph|]; try (injection X as <- <-; contradiction). destruct q as [|[p|er] q].
      + destruct (entries s i); injection X as <- <-; contradiction.
      + destruct (decode p); injection X as <- <-; destruct I as [I|[]]; discriminate.
      + injection X as <- <-. destruct er as [[|y ys]|]; try contradiction. destruct I as [I|[]]. discriminate.
    - destruct (streams s i) as [[ph q]|]; [destruct ph|]; injection X as <- <-; contradiction.
    - destruct (streams s i) as [[ph q]|]; [destruct ph|]; injection X as <- <-; contradiction.
    - unfold post in X. destruct h; cbn in X; [|injection X as <- <-; destruct I as [I|[]]; discriminate]. destruct b as [b|]; [|injection X as <- <-; destruct I as [I|[]]; discriminate].
      destruct (String.eqb_spec (b_id b) p) as [Hp|]; cbn in X; [|injection X as <- <-; destruct I as [I|[]]; discriminate].
      destruct (entries s (b_id b)) as [en|] eqn:Eb; [|injection X as <- <-; destruct I as [I|[]]; discriminate].
      destruct (String.eqb_spec (e_verifier en) (b_verifier b)) as [Hv|]; cbn in X; [|injection X as <- <-; destruct I as [I|[]]; discriminate]. destruct (b_action b) eqn:Ab.
      + injection X as <- <-. destruct I as [I|[]]. discriminate.
      + unfold handle_next in X. destruct (b_payload b) eqn:Pb; [|injection X as <- <-; destruct I as [I|[]]; discriminate]. destruct (try_send _ _ s) as (s1, l1) eqn:T.
        destruct (send_cases _ _ _ _ _ T) as (_ & _ & _ & _ & [(_ & [->| ->])|(ph & q & _ & _ & _ & _ & ->)]); injection X as <- <-; destruct I as [I|[I|[]]]; try discriminate.
        injection I as <- <-. exists en. split; [exact Eb|]. left. exists b. rewrite Hp. auto.
      + destruct (try_send _ _ s) as (s1, l1) eqn:T. injection X as <- <-.
        destruct (send_cases _ _ _ _ _ T) as (_ & _ & _ & _ & [(_ & [->| ->])|(ph & q & _ & _ & _ & _ & ->)]); destruct I as [I|[I|[]]]; try discriminate.
        injection I as <- <-. exists en. split; [exact Eb|]. left. exists b. rewrite Hp. auto.
    - destruct (existsb _ _); injection X as <- <-; contradiction.
    - destruct (entries s i); [destruct (N.ltb _ _)|]; injection X as <- <-; contradiction.
    - destruct (existsb _ _); [|injection X as <- <-; contradiction]. destruct (entries s i) as [en|] eqn:Eb; [|injection X as <- <-; contradiction].
      match type of X with (let '(_, _) := ?t in _) = _ => destruct t as (s1, l1) eqn:T end. injection X as <- <-.
      destruct (send_cases _ _ _ _ _ T) as (_ & _ & _ & _ & [(_ & [->| ->])|(ph & q & _ & _ & _ & _ & ->)]); destruct I as [I|[I|[]]]; try discriminate.
      injection I as <- <-. exists en. auto.
  Qed.
  Lemma exec_label h : forall s tr x, exec start h = (s, tr) -> In x tr -> exists before e after s1 a s2 b, h = before ++ e :: after /\ exec start before = (s1, a) /\ step s1 e = (s2, b) /\ In x b.
  Proof.
    induction h as [|e h IH] using rev_ind; intros s tr x X I.
    - cbn in X. injection X as <- <-. contradiction.
    - rewrite exec_snoc in X. destruct (exec start h) as (s1, a) eqn:E1. destruct (step s1 e) as (s2, b) eqn:E2. injection X as <- <-. apply in_app_iff in I. destruct I as [I|I].
      + destruct (IH _ _ x eq_refl I) as (be & e' & af & t1 & a1 & t2 & b1 & -> & A & B & C). exists be, e', (af ++ [e]), t1, a1, t2, b1. rewrite <- app_assoc. auto.
      + exists h, e, [], s1, a, s2, b. auto.
  Qed.
  Lemma authentic_only h s tr id m : exec start h = (s, tr) -> In (LSent id m) tr ->
    exists before e after v, h = before ++ e :: after /\ In (Subscribe id v) before /\ (authentic P E id v e m \/ e = Evict id /\ m = Complete (Some [gone])).
  Proof.
    intros X I. destruct (exec_label _ _ _ _ X I) as (be & e & af & s1 & a & s2 & b & -> & A & B & C).
    destruct (step_sent _ _ _ _ _ _ B C) as (x & En & D). exists be, e, af, (e_verifier x). split; [reflexivity|]. split; [apply (owned_exec _ _ _ A); exact En | exact D].
  Qed.

  (** ** Heartbeats *)
  Definition silent (h : list event) (id : string) : Prop :=
    exists before after s a x, h = before ++ Judge id :: after /\ exec start before = (s, a) /\ entries s id = Some x /\ (deadline < now s - last_sign x)%N.
  Lemma late_step s e s' l id : step s e = (s', l) -> In id (late s') -> In id (late s) \/ e = Judge id /\ exists x, entries s id = Some x /\ (deadline < now s - last_sign x)%N.
  Proof.
    intros X I. destruct e as [n|i v|i ok|i|i|i|h p b|i|i|i]; cbn in X.
    1-2: injection X as <- <-; auto.
    - destruct (streams s i) as [[ph q]|]; [destruct ph|]; try (injection X as <- <-; auto; fail). destruct ok; injection X as <- <-; auto.
    - unfold receive in X. destruct (streams s i) as [[ph q]|]; [destruct ph|]; try (injection X as <- <-; auto; fail). destruct q as [|[p|er] q].
      + destruct (entries s i); injection X as <- <-; auto.
      + destruct (decode p); injection X as <- <-; auto.
      + injection X as <- <-; auto.
    - destruct (streams s i) as [[ph q]|]; [destruct ph|]; injection X as <- <-; auto.
    - destruct (streams s i) as [[ph q]|]; [destruct ph|]; injection X as <- <-; auto.
    - unfold post in X. destruct h; cbn in X; [|injection X as <- <-; auto]. destruct b as [b|]; [|injection X as <- <-; auto].
      destruct (String.eqb_spec (b_id b) p); cbn in X; [|injection X as <- <-; auto]. destruct (entries s (b_id b)) as [en|]; [|injection X as <- <-; auto].
      destruct (String.eqb_spec (e_verifier en) (b_verifier b)); cbn in X; [|injection X as <- <-; auto]. destruct (b_action b).
      + injection X as <- <-. auto.
      + unfold handle_next in X. destruct (b_payload b); [|injection X as <- <-; auto]. destruct (try_send _ _ s) as (s1, l1) eqn:T.
        destruct (send_cases _ _ _ _ _ T) as (_ & _ & L & _). destruct l1; injection X as <- <-; cbn in I; rewrite L in I; auto.
      + destruct (try_send _ _ s) as (s1, l1) eqn:T. destruct (send_cases _ _ _ _ _ T) as (_ & _ & L & _). injection X as <- <-. cbn in I. rewrite L in I. auto.
    - destruct (existsb _ _); injection X as <- <-; auto.
    - destruct (entries s i) as [x|] eqn:En; [|injection X as <- <-; auto]. destruct (N.ltb_spec deadline (now s - last_sign x)); injection X as <- <-; auto.
      destruct I as [->|I]; [right; eauto | auto].
    - destruct (existsb _ _); [|injection X as <- <-; auto]. assert (W : forall x, In x (without i (late s)) -> In x (late s)) by (intros x Hx; apply filter_In in Hx; apply Hx).
      destruct (entries s i); [|injection X as <- <-; auto].
      match type of X with (let '(_, _) := ?t in _) = _ => destruct t as (s1, l1) eqn:T end. destruct (send_cases _ _ _ _ _ T) as (_ & _ & L & _). injection X as <- <-. rewrite L in I. auto.
  Qed.
  Lemma late_silent h : forall s tr id, exec start h = (s, tr) -> In id (late s) -> silent h id.
  Proof.
    induction h as [|e h IH] using rev_ind; intros s tr id X I.
    - cbn in X. injection X as <- <-. contradiction.
    - rewrite exec_snoc in X. destruct (exec start h) as (s1, a) eqn:E1. destruct (step s1 e) as (s2, b) eqn:E2. injection X as <- <-.
      destruct (late_step _ _ _ _ _ E2 I) as [I'|(-> & x & En & Lt)].
      + destruct (IH _ _ id eq_refl I') as (be & af & t & a1 & x & -> & A). exists be, (af ++ [e]), t, a1, x. rewrite <- app_assoc. auto.
      + exists h, [], s1, a, x. auto.
  Qed.
  Lemma evicted_silent h s tr id : exec start h = (s, tr) -> In (LEvicted id) tr -> silent h id.
  Proof.
    intros X I. destruct (exec_label _ _ _ _ X I) as (be & e & af & s1 & a & s2 & b & -> & A & B & C).
    assert (L : In id (late s1)).
    { clear X I A. destruct e as [n|i v|i ok|i|i|i|h p b0|i|i|i]; cbn in B.
      1-2: injection B as <- <-; contradiction.
      - destruct (streams s1 i) as [[ph q]|]; [destruct ph|]; injection B as <- <-; contradiction.
      - unfold receive in B. destruct (streams s1 i) as [[ph q]|]; [destruct ph|]; try (injection B as <- <-; contradiction). destruct q as [|[p|er] q].
        + destruct (entries s1 i); injection B as <- <-; contradiction.
        + destruct (decode p); injection B as <- <-; destruct C as [C|[]]; discriminate.
        + injection B as <- <-. destruct er as [[|y ys]|]; try contradiction. destruct C as [C|[]]. discriminate.
      - destruct (streams s1 i) as [[ph q]|]; [destruct ph|]; injection B as <- <-; contradiction.
      - destruct (streams s1 i) as [[ph q]|]; [destruct ph|]; injection B as <- <-; contradiction.
      - exfalso. unfold post in B. destruct h; cbn in B; [|injection B as <- <-; destruct C as [C|[]]; discriminate]. destruct b0 as [b0|]; [|injection B as <- <-; destruct C as [C|[]]; discriminate].
        destruct (String.eqb_spec (b_id b0) p); cbn in B; [|injection B as <- <-; destruct C as [C|[]]; discriminate].
        destruct (entries s1 (b_id b0)) as [en|]; [|injection B as <- <-; destruct C as [C|[]]; discriminate].
        destruct (String.eqb_spec (e_verifier en) (b_verifier b0)); cbn in B; [|injection B as <- <-; destruct C as [C|[]]; discriminate]. destruct (b_action b0).
        + injection B as <- <-. destruct C as [C|[]]. discriminate.
        + unfold handle_next in B. destruct (b_payload b0); [|injection B as <- <-; destruct C as [C|[]]; discriminate]. destruct (try_send _ _ s1) as (s3, l1) eqn:T.
          destruct (send_cases _ _ _ _ _ T) as (_ & _ & _ & _ & [(_ & [->| ->])|(ph & q & _ & _ & _ & _ & ->)]); injection B as <- <-; destruct C as [C|[C|[]]]; discriminate.
        + destruct (try_send _ _ s1) as (s3, l1) eqn:T. injection B as <- <-.
          destruct (send_cases _ _ _ _ _ T) as (_ & _ & _ & _ & [(_ & [->| ->])|(ph & q & _ & _ & _ & _ & ->)]); destruct C as [C|[C|[]]]; discriminate.
      - destruct (existsb _ _); injection B as <- <-; contradiction.
      - destruct (entries s1 i); [destruct (N.ltb _ _)|]; injection B as <- <-; contradiction.
      - destruct (existsb (String.eqb i) (late s1)) eqn:Ex; [|injection B as <- <-; contradiction]. destruct (entries s1 i) as [en|]; [|injection B as <- <-; contradiction].
        match type of B with (let '(_, _) := ?t in _) = _ => destruct t as (s3, l1) eqn:T end. injection B as <- <-.
        assert (Hi : In i (late s1)) by (apply existsb_exists in Ex; destruct Ex as (z & Hz & Ez); apply String.eqb_eq in Ez; subst z; exact Hz).
        destruct (send_cases _ _ _ _ _ T) as (_ & _ & _ & _ & [(_ & [->| ->])|(ph & q & _ & _ & _ & _ & ->)]); destruct C as [C|[C|[]]]; try discriminate; injection C as <-; exact Hi. }
    destruct (late_silent _ _ _ _ A L) as (b2 & a2 & t & a1 & x & -> & D). exists b2, (a2 ++ e :: af), t, a1, x. rewrite <- app_assoc. auto.
  Qed.

  (** ** The end *)
  Lemma drains id : forall q s, streams s id = Some (mkstream Streaming q) -> entries s id = None ->
    exists s' tr, exec s (repeat (Receive id) (S (length q))) = (s', tr) /\ streams s' id = Some (mkstream Ended []) /\ entries s' id = None.
  Proof.
    assert (Z : forall n s, streams s id = Some (mkstream Ended []) -> entries s id = None ->
      exists s' tr, exec s (repeat (Receive id) n) = (s', tr) /\ streams s' id = Some (mkstream Ended []) /\ entries s' id = None).
    { induction n as [|n IH]; intros s S En; cbn [repeat CallbackModel.exec]; [eauto|]. cbn [CallbackModel.step]. unfold receive. rewrite S.
      destruct (IH s S En) as (s' & tr & X & Y). rewrite X. eauto. }
    assert (Xc : forall s e l, exec s (e :: l) = let '(s1, a) := step s e in let '(s2, b) := exec s1 l in (s2, a ++ b)) by reflexivity.
    induction q as [|m q IH]; intros s S En.
    - cbn [length repeat]. rewrite Xc. cbn [CallbackModel.step]. unfold receive. rewrite S, En. cbn. eexists _, _. split; [reflexivity|]. cbn. rewrite !upd_same. auto.
    - assert (Fi : streams (finish id s) id = Some (mkstream Ended []) /\ entries (finish id s) id = None) by (cbn; rewrite !upd_same; auto). destruct Fi as (F1 & F2).
      change (repeat (@Receive P E id) (Datatypes.S (length (m :: q)))) with (Receive id :: repeat (@Receive P E id) (Datatypes.S (length q))).
      rewrite Xc. cbn [CallbackModel.step]. unfold receive at 1. rewrite S.
      destruct m as [p|er].
      + destruct (decode p).
        * destruct (IH (set_stream id (mkstream Streaming q) s)) as (s' & tr & X & Y); [apply upd_same | exact En|]. rewrite X. eauto.
        * destruct (Z (Datatypes.S (length q)) _ F1 F2) as (s' & tr & X & Y). rewrite X. eauto.
      + destruct (Z (Datatypes.S (length q)) _ F1 F2) as (s' & tr & X & Y). rewrite X. eauto.
  Qed.

  (** ** Answers *)
  Definition answer (l : list label) : list reply := flat_map (fun x => match x with LReply r => [r] | _ => [] end) l.
  Lemma post_answer h p b s s' (l : list label) : post h p b s = (s', l) -> exists r, answer l = [r] /\
    (r = InvalidProtocolHeader <-> h = false) /\
    (r = PayloadParseError <-> h = true /\ b = None) /\
    (r = SubscriptionIdMismatch <-> h = true /\ exists y, b = Some y /\ b_id y <> p) /\
    (r = SubscriptionNotFound <-> h = true /\ exists y, b = Some y /\ b_id y = p /\ entries s p = None) /\
    (r = InvalidVerifier <-> h = true /\ exists y x, b = Some y /\ b_id y = p /\ entries s p = Some x /\ e_verifier x <> b_verifier y) /\
    (r = NoContent \/ r = SubscriptionDropped \/ s' = s).
  Proof.
    unfold post. intros X. destruct h; cbn in X.
    2:{ injection X as <- <-. eexists. split; [reflexivity|]. repeat split; try (intros; discriminate); try (intros (? & _); discriminate); auto. }
    destruct b as [b|].
    2:{ injection X as <- <-. eexists. split; [reflexivity|]. repeat split; try (intros; discriminate); auto; intros (_ & ?); try (destruct H as (? & ? & _); discriminate); destruct H as (? & ? & ? & _); discriminate. }
    destruct (String.eqb_spec (b_id b) p) as [Hp|Hp]; cbn in X.
    2:{ injection X as <- <-. eexists. split; [reflexivity|]. repeat split; try (intros; discriminate); eauto; try (intros (_ & H); discriminate);
        try (intros (_ & y & H & H' & _); injection H as <-; contradiction). intros (_ & y & x & H & H' & _). injection H as <-. contradiction. }
    destruct (entries s (b_id b)) as [en|] eqn:Eb.
    2:{ injection X as <- <-. eexists. split; [reflexivity|]. repeat split; try (intros; discriminate); eauto; try (intros (_ & H); discriminate).
        - intros (_ & y & H & H'). injection H as <-. contradiction.
        - exists b. rewrite <- Hp. auto.
        - intros (_ & y & x & H & H' & H2 & _). injection H as <-. rewrite <- Hp, Eb in H2. discriminate. }
    rewrite Hp in Eb. destruct (String.eqb_spec (e_verifier en) (b_verifier b)) as [Hv|Hv]; cbn in X.
    2:{ injection X as <- <-. eexists. split; [reflexivity|]. repeat split; try (intros; discriminate); eauto; try (intros (_ & H); discriminate).
        - intros (_ & y & H & H'). injection H as <-. contradiction.
        - intros (_ & y & H & H' & H2). congruence.
        - exists b, en. auto. }
    assert (G : forall r, r = NoContent \/ r = SubscriptionDropped \/ r = MissingPayload ->
      (r = InvalidProtocolHeader <-> true = false) /\ (r = PayloadParseError <-> true = true /\ Some b = None) /\
      (r = SubscriptionIdMismatch <-> true = true /\ exists y, Some b = Some y /\ b_id y <> p) /\
      (r = SubscriptionNotFound <-> true = true /\ exists y, Some b = Some y /\ b_id y = p /\ entries s p = None) /\
      (r = InvalidVerifier <-> true = true /\ exists y x, Some b = Some y /\ b_id y = p /\ entries s p = Some x /\ e_verifier x <> b_verifier y)).
    { intros r [->|[->| ->]]; (split; [|split; [|split; [|split]]]); split; try (intros; discriminate); try (intros (_ & H'); discriminate);
        intros (_ & y & Z); first [destruct Z as (H1 & H2); injection H1 as <-; contradiction | destruct Z as (H1 & H2 & H3); congruence | destruct Z as (x & H1 & H2 & H3 & H4); congruence]. }
    destruct (b_action b).
    - injection X as <- <-. exists NoContent. split; [reflexivity|]. destruct (G NoContent (or_introl eq_refl)) as (G1 & G2 & G3 & G4 & G5). auto 10.
    - unfold handle_next in X. destruct (b_payload b).
      + destruct (try_send _ _ s) as (s1, l1) eqn:T. destruct (G NoContent (or_introl eq_refl)) as (G1 & G2 & G3 & G4 & G5). destruct (G SubscriptionDropped (or_intror (or_introl eq_refl))) as (K1 & K2 & K3 & K4 & K5).
        destruct (send_cases _ _ _ _ _ T) as (_ & _ & _ & _ & [(_ & [->| ->])|(ph & q & _ & _ & _ & _ & ->)]); injection X as <- <-;
          [exists NoContent | exists SubscriptionDropped | exists NoContent]; (split; [reflexivity|]); auto 10.
      + injection X as <- <-. exists MissingPayload. split; [reflexivity|]. destruct (G MissingPayload (or_intror (or_intror eq_refl))) as (G1 & G2 & G3 & G4 & G5). auto 10.
    - destruct (try_send _ _ s) as (s1, l1) eqn:T. injection X as <- <-. exists NoContent. destruct (G NoContent (or_introl eq_refl)) as (G1 & G2 & G3 & G4 & G5).
      split; [destruct (send_cases _ _ _ _ _ T) as (_ & _ & _ & _ & [(_ & [->| ->])|(ph & q & _ & _ & _ & _ & ->)]); reflexivity|]. auto 10.
  Qed.
End Proofs.
