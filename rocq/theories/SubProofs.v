(** Proofs about subscription channels. *)
From Coq Require Import List Bool Arith Lia.
From Verif Require Import SubModel SubSpec.
Import ListNotations.

Lemma subseq_refl {A} (l : list A) : subseq l l.
Proof. induction l; constructor; auto. Qed.
Lemma subseq_nil {A} (l : list A) : subseq [] l.
Proof. induction l; constructor; auto. Qed.
Lemma subseq_snoc {A} (l m : list A) a : subseq l m -> subseq (l ++ [a]) (m ++ [a]).
Proof. induction 1; cbn; constructor; auto. constructor. Qed.
Lemma subseq_skip {A} (l m : list A) a : subseq l m -> subseq l (m ++ [a]).
Proof. induction 1; cbn; constructor; auto. constructor. Qed.
Lemma subseq_app_l {A} (l k m : list A) : subseq (l ++ k) m -> subseq l m.
Proof.
  intros H. remember (l ++ k) as x. revert l Heqx. induction H as [|a x m H IH|a x m H IH]; intros l E.
  - symmetry in E. apply app_eq_nil in E. destruct E as [-> _]. constructor.
  - destruct l as [|b l]; [apply subseq_nil|]. injection E as -> E. constructor. auto.
  - constructor. auto.
Qed.
Lemma subseq_nodrop {A} (l m : list A) : subseq l m -> forall a, In a l -> In a m.
Proof. induction 1; cbn; intros b H'; [exact H'|destruct H'; auto|auto]. Qed.

Section B.
  Variable A : Type.
  Notation bevent := (bevent A). Notation buffer := (buffer A).
  Lemma bexec_snoc (u : buffer) l e : bexec u (l ++ [e]) = match bexec u l with Some u' => bstep u' e | None => None end.
  Proof. revert u; induction l as [|x l IH]; intros u; cbn; [destruct (bstep u e); reflexivity|]. destruct (bstep u x); auto. Qed.
  Lemma produced_snoc (l : list bevent) e : produced (l ++ [e]) = produced l ++ match e with BItem a => [a] | _ => [] end.
  Proof. unfold produced. rewrite flat_map_app. cbn [flat_map]. rewrite app_nil_r. reflexivity. Qed.
  Lemma receives_snoc (l : list bevent) e : receives (l ++ [e]) = receives l + match e with BRecv => 1 | _ => 0 end.
  Proof. unfold receives. rewrite filter_app, app_length. cbn. destruct e; reflexivity. Qed.

  Record binv (cap : nat) (tr : list bevent) (u : buffer) : Prop := {
    i_cap : u_cap u = cap;
    i_len : length (u_buf u) <= cap;
    i_rx : subseq (u_got u ++ u_buf u) (produced tr);
    i_leave : u_rx u = true -> ~ In BLeave tr;
    i_tx : u_tx u = false -> u_rx u = true -> In BEnd tr;
    i_end : u_end u = true -> u_buf u = [] /\ u_tx u = false /\ (In BEnd tr \/ In BLeave tr);
    i_none : u_tx u = false -> In BEnd tr \/ u_rx u = false }.
  Lemma in_snoc {B} (x : B) l y : In x (l ++ [y]) <-> In x l \/ y = x.
  Proof. rewrite in_app_iff. cbn. intuition. Qed.
  Ltac live Iv Ie :=
    try discriminate;
    try (intros _ H; apply in_snoc in H; destruct H as [H|H]; [exact (Iv eq_refl H)|discriminate H]);
    try (intros E H; apply in_snoc in H; destruct H as [H|H]; [exact (Iv E H)|discriminate H]);
    try (intros E; destruct (Ie E) as (? & ? & _); discriminate);
    try (intros; apply in_snoc; auto; fail);
    try (intros; left; apply in_snoc; auto; fail).
  Lemma binv_step cap tr u e u' : binv cap tr u -> bstep u e = Some u' -> binv cap (tr ++ [e]) u'.
  Proof.
    intros I St. destruct I as [Ic Il Ir Iv It Ie In']. destruct u as [c b rx tx got en]. cbn [u_cap u_buf u_rx u_tx u_got u_end] in *. subst c.
    unfold bstep in St. cbn [u_cap u_buf u_rx u_tx u_got u_end try_send stop] in St.
    assert (P := produced_snoc tr e).
    destruct e as [a| | | |].
    - destruct tx; [|discriminate St]. unfold try_send in St. cbn [u_cap u_buf u_rx u_tx u_got u_end] in St.
      destruct rx; cbn [negb] in St.
      + destruct (length b <? cap) eqn:L; injection St as <-; constructor; cbn [u_cap u_buf u_rx u_tx u_got u_end stop]; rewrite ?P; live Iv Ie; auto.
        * apply Nat.ltb_lt in L. rewrite app_length. cbn. lia.
        * rewrite app_assoc. apply subseq_snoc, Ir.
        * apply subseq_skip, Ir.
      + injection St as <-. constructor; cbn [u_cap u_buf u_rx u_tx u_got u_end stop]; rewrite ?P; live Iv Ie; auto.
        apply subseq_skip, Ir.
    - destruct tx; [|discriminate St]. injection St as <-. rewrite app_nil_r in P.
      constructor; cbn [u_cap u_buf u_rx u_tx u_got u_end stop]; rewrite ?P; live Iv Ie; auto.
    - destruct tx; [|discriminate St]. destruct rx; [discriminate St|]. injection St as <-. rewrite app_nil_r in P.
      constructor; cbn [u_cap u_buf u_rx u_tx u_got u_end stop]; rewrite ?P; live Iv Ie; auto.
    - destruct rx; [|discriminate St]. destruct en; [discriminate St|]. cbn [andb negb] in St. rewrite app_nil_r in P.
      destruct b as [|a b].
      + destruct tx; [discriminate St|]. injection St as <-. constructor; cbn [u_cap u_buf u_rx u_tx u_got u_end stop]; rewrite ?P; live Iv Ie; auto.
        intros _. repeat split; auto. left. apply in_snoc. auto.
      + injection St as <-. constructor; cbn [u_cap u_buf u_rx u_tx u_got u_end stop]; rewrite ?P; live Iv Ie; auto.
        * cbn in Il. lia.
        * rewrite <- app_assoc. exact Ir.
    - destruct rx; [|discriminate St]. injection St as <-. rewrite app_nil_r in P.
      constructor; cbn [u_cap u_buf u_rx u_tx u_got u_end stop]; rewrite ?P; live Iv Ie; auto.
      + cbn. lia.
      + rewrite app_nil_r. apply (subseq_app_l _ b), Ir.
      + intros E. destruct (Ie E) as (? & ? & _). repeat split; auto. right. apply in_snoc. auto.
  Qed.
  Lemma binv_exec cap u0 tr : buffered (A := A) cap = Some u0 -> forall u, bexec u0 tr = Some u -> binv cap tr u.
  Proof.
    intros H0. induction tr as [|e tr IH] using rev_ind; intros u H.
    - injection H as <-. destruct cap; [discriminate|]. injection H0 as <-.
      constructor; cbn; try discriminate; auto; try lia; constructor.
    - rewrite bexec_snoc in H. destruct (bexec u0 tr) as [u1|] eqn:E; [|discriminate H]. eapply binv_step; [apply IH; reflexivity|exact H].
  Qed.

  Lemma in_order cap u0 tr u : buffered (A := A) cap = Some u0 -> bexec u0 tr = Some u ->
    subseq (u_got u ++ u_buf u) (produced tr) /\ length (u_buf u) <= cap.
  Proof. intros H0 H. destruct (binv_exec cap u0 tr H0 u H). auto. Qed.
  Lemma never_blocks (u : buffer) a : u_tx u = true -> exists u', bstep u (BItem a) = Some u' /\
    (u_rx u = true -> u_tx u' = true /\ u_rx u' = true /\ u_end u' = u_end u /\ u_got u' = u_got u /\
      (u_buf u' = u_buf u ++ [a] \/ u_buf u' = u_buf u /\ u_cap u <= length (u_buf u))).
  Proof.
    destruct u as [c b rx tx got en]. cbn [u_cap u_buf u_rx u_tx u_got u_end]. intros ->. cbn [bstep u_tx].
    eexists. split; [reflexivity|]. intros ->. unfold try_send. cbn [u_cap u_buf u_rx u_tx u_got u_end negb].
    destruct (length b <? c) eqn:L; cbn [u_cap u_buf u_rx u_tx u_got u_end]; repeat split; auto.
    right. apply Nat.ltb_ge in L. auto.
  Qed.
  Lemma ends_with_source cap u0 tr u : buffered (A := A) cap = Some u0 -> bexec u0 tr = Some u -> u_rx u = true -> u_end u = true ->
    In BEnd tr /\ u_buf u = [].
  Proof.
    intros H0 H Hr He. destruct (binv_exec cap u0 tr H0 u H) as [? ? ? Iv It Ie In']. destruct (Ie He) as (? & ? & ?). auto.
  Qed.

  Lemma keeps_up_prefix cap (tr : list bevent) e : keeps_up cap (tr ++ [e]) -> keeps_up cap tr.
  Proof. intros K pre a post ->. apply (K pre a (post ++ [e])). rewrite <- app_assoc. reflexivity. Qed.
  Lemma kept_all cap u0 : buffered (A := A) cap = Some u0 -> forall tr u, bexec u0 tr = Some u -> u_rx u = true -> keeps_up cap tr ->
    u_got u ++ u_buf u = produced tr /\ (u_end u = false -> receives tr = length (u_got u)).
  Proof.
    intros H0 tr. induction tr as [|e tr IH] using rev_ind; intros u H Hr K.
    - injection H as <-. destruct cap; [discriminate|]. injection H0 as <-. split; reflexivity.
    - rewrite bexec_snoc in H. destruct (bexec u0 tr) as [u1|] eqn:E; [|discriminate H].
      assert (Hr1 : u_rx u1 = true).
      { destruct u1 as [c b rx tx got en]. destruct rx; [reflexivity|]. exfalso.
        destruct e; cbn [bstep u_rx u_tx u_cap u_buf u_got u_end try_send andb negb] in H; unfold try_send in H; cbn [u_rx negb] in H;
          try (destruct tx; [|discriminate H]); try discriminate H; injection H as <-; cbn [stop u_rx] in Hr; discriminate Hr. }
      destruct (IH u1 eq_refl Hr1 (keeps_up_prefix _ _ _ K)) as [G R].
      destruct (binv_exec cap u0 tr H0 u1 E) as [Ic Il Ir Iv It Ie In'].
      destruct u1 as [c b rx tx got en]. cbn [u_cap u_buf u_rx u_tx u_got u_end] in *. subst rx c.
      rewrite produced_snoc, receives_snoc. destruct e as [a| | | |]; cbn [bstep u_cap u_buf u_rx u_tx u_got u_end andb negb] in H.
      + destruct tx; [|discriminate H]. unfold try_send in H. cbn [u_cap u_buf u_rx u_tx u_got u_end negb] in H.
        assert (L := K tr a [] eq_refl). rewrite <- G, app_length in L.
        destruct en; [destruct (Ie eq_refl) as (? & ? & _); discriminate|]. rewrite (R eq_refl) in L.
        destruct (length b <? cap) eqn:Lb; [|apply Nat.ltb_ge in Lb; lia].
        injection H as <-. cbn [u_cap u_buf u_rx u_tx u_got u_end]. rewrite app_assoc, G. split; [reflexivity|]. intros _. rewrite R by reflexivity. lia.
      + destruct tx; [|discriminate H]. injection H as <-. cbn [stop u_cap u_buf u_rx u_tx u_got u_end]. rewrite app_nil_r, Nat.add_0_r. auto.
      + destruct tx; discriminate H.
      + destruct en; [discriminate H|]. destruct b as [|a b].
        * destruct tx; [discriminate H|]. injection H as <-. cbn [u_cap u_buf u_rx u_tx u_got u_end]. rewrite !app_nil_r in *. split; [exact G|discriminate].
        * injection H as <-. cbn [u_cap u_buf u_rx u_tx u_got u_end]. rewrite app_nil_r, <- app_assoc. split; [exact G|]. intros _. rewrite R, app_length by reflexivity. reflexivity.
      + injection H as <-. discriminate Hr.
  Qed.
  Lemma loses_nothing cap u0 tr u : buffered (A := A) cap = Some u0 -> bexec u0 tr = Some u -> u_rx u = true -> keeps_up cap tr ->
    u_got u ++ u_buf u = produced tr /\ (u_end u = true -> u_got u = produced tr).
  Proof.
    intros H0 H Hr K. destruct (kept_all cap u0 H0 tr u H Hr K) as [G _]. split; [exact G|]. intros He.
    destruct (ends_with_source cap u0 tr u H0 H Hr He) as [_ Eb]. rewrite Eb, app_nil_r in G. exact G.
  Qed.
  Lemma gone_consumer (u : buffer) : u_tx u = true -> u_rx u = false ->
    (forall a, bstep u (BItem a) = Some (stop u)) /\ bstep u BClosed = Some (stop u).
  Proof. destruct u as [c b rx tx got en]. cbn [u_tx u_rx]. intros -> ->. split; reflexivity. Qed.
End B.

Section C.
  Variable A : Type.
  Notation sub := (sub A). Notation sevent := (sevent A). Notation recvd := (recvd A). Notation client := (client A).

  Lemma reads_snoc (sent : list A) pos log p r p' : reads sent pos log p -> reads sent p [r] p' -> reads sent pos (log ++ [r]) p'.
  Proof. induction 1; cbn; intros H'; [exact H'|constructor; auto|constructor; auto]. Qed.
  Lemma reads_more (sent : list A) x pos log p : reads sent pos log p -> reads (sent ++ x) pos log p.
  Proof.
    induction 1; constructor; auto. rewrite nth_error_app1; [assumption|]. apply nth_error_Some. congruence.
  Qed.
  Lemma recv_reads cap (sent : list A) op pos r p' : recv cap sent op pos = Some (r, p') -> r <> RClosed -> reads sent pos [r] p' /\ p' <= length sent.
  Proof.
    unfold recv. destruct (pos + cap <? length sent) eqn:L.
    - apply Nat.ltb_lt in L. intros H _. injection H as <- <-. split; [|lia]. replace (length sent - cap) with (pos + (length sent - cap - pos)) at 2 by lia.
      apply reads_lag; [lia|constructor].
    - destruct (nth_error sent pos) as [a|] eqn:N.
      + intros H _. injection H as <- <-. split; [constructor; [exact N|constructor]|]. assert (pos < length sent) by (apply nth_error_Some; congruence). lia.
      + destruct op; [discriminate|]. intros H Hr. injection H as <- <-. congruence.
  Qed.
  Lemma lag_is_real cap (sent : list A) op pos n p' : recv cap sent op pos = Some (RLagged n, p') ->
    cap < length sent - pos /\ p' = pos + n /\ length sent = p' + cap.
  Proof.
    unfold recv. destruct (pos + cap <? length sent) eqn:L.
    - apply Nat.ltb_lt in L. intros H. injection H as <- <-. lia.
    - destruct (nth_error sent pos); [discriminate|]. destruct op; discriminate.
  Qed.
  Lemma closed_at_end cap (sent : list A) op pos p' : recv cap sent op pos = Some (RClosed, p') -> op = false /\ length sent <= pos.
  Proof.
    unfold recv. destruct (pos + cap <? length sent) eqn:L; [discriminate|]. destruct (nth_error sent pos) eqn:N; [discriminate|].
    destruct op; [discriminate|]. intros _. split; [reflexivity|]. apply nth_error_None, N.
  Qed.
  (** Only the last [cap] events are ever looked at. *)
  Lemma window cap (old old' new : list A) op pos : length old = length old' -> length new <= cap -> length old <= pos ->
    recv cap (old ++ new) op pos = recv cap (old' ++ new) op pos.
  Proof.
    intros E L P. unfold recv. rewrite !app_length, E. destruct (pos + cap <? length old' + length new) eqn:Lt; [reflexivity|].
    rewrite !nth_error_app2 by lia. rewrite E. reflexivity.
  Qed.
  Lemma window_lag cap (old old' new : list A) op pos : length old = length old' -> length new = cap -> pos < length old ->
    recv cap (old ++ new) op pos = recv cap (old' ++ new) op pos.
  Proof.
    intros E L P. unfold recv. rewrite !app_length, E. destruct (pos + cap <? length old' + length new) eqn:Lt; [reflexivity|].
    apply Nat.ltb_ge in Lt. lia.
  Qed.
  Lemma reads_account (sent : list A) pos log p : reads sent pos log p -> pos + length (items log) + missed log = p.
  Proof.
    induction 1 as [pos|pos a log p' N R IH|pos n log p' P R IH].
    - cbn. lia.
    - change (items (RItem a :: log)) with (a :: items log). change (missed (RItem a :: log)) with (missed log). cbn [length]. lia.
    - change (items (RLagged n :: log)) with (items log). change (missed (RLagged n :: log)) with (n + missed log). lia.
  Qed.
  Lemma skipn_nth (l : list A) n a : nth_error l n = Some a -> skipn n l = a :: skipn (S n) l.
  Proof. revert l; induction n as [|n IH]; intros [|b l]; cbn; intros H; try discriminate; [injection H as ->; reflexivity|]. apply IH, H. Qed.
  Lemma subseq_skipn (l k : list A) n : subseq l (skipn n k) -> subseq l k.
  Proof. revert k; induction n as [|n IH]; intros k H; [exact H|]. destruct k as [|b k]; [exact H|]. constructor. apply IH, H. Qed.
  Lemma skipn_add (l : list A) n m : skipn m (skipn n l) = skipn (n + m) l.
  Proof. revert l; induction n as [|n IH]; intros l; [reflexivity|]. destruct l as [|b l]; [destruct m; reflexivity|]. apply IH. Qed.
  Lemma reads_subseq (sent : list A) pos log p : reads sent pos log p -> subseq (items log) (skipn pos sent).
  Proof.
    induction 1 as [pos|pos a log p' N R IH|pos n log p' P R IH]; cbn [items flat_map app].
    - apply subseq_nil.
    - rewrite (skipn_nth _ _ _ N). constructor. exact IH.
    - change (flat_map _ log) with (items log). apply (subseq_skipn _ _ n). rewrite skipn_add. exact IH.
  Qed.
  Lemma reads_all (sent : list A) pos log p : reads sent pos log p -> missed log = 0 -> items log = firstn (p - pos) (skipn pos sent).
  Proof.
    induction 1 as [pos|pos a log p' N R IH|pos n log p' P R IH]; cbn [missed fold_right]; intros M.
    - rewrite Nat.sub_diag. reflexivity.
    - assert (Ac := reads_account _ _ _ _ R). rewrite (skipn_nth _ _ _ N). replace (p' - pos) with (S (p' - S pos)) by lia. cbn [firstn items flat_map app].
      f_equal. apply IH, M.
    - lia.
  Qed.

  Lemma sexec_snoc (s : sub) l e : sexec s (l ++ [e]) = match sexec s l with Some s' => sstep s' e | None => None end.
  Proof. revert s; induction l as [|x l IH]; intros s; cbn [app sexec]; [destruct (sstep s e); reflexivity|]. destruct (sstep s x); auto. Qed.
  Lemma find_set n m (c : client) l : find_client n (set_client m c l) = if Nat.eqb n m then Some c else find_client n l.
  Proof.
    induction l as [|[k d] l IH]; cbn [set_client find_client].
    - destruct (Nat.eqb n m); reflexivity.
    - destruct (Nat.eqb m k) eqn:E; cbn [find_client].
      + apply Nat.eqb_eq in E. subst k. destruct (Nat.eqb n m); reflexivity.
      + rewrite IH. destruct (Nat.eqb n k) eqn:E'; [|reflexivity]. apply Nat.eqb_eq in E'. subst k. rewrite Nat.eqb_sym, E. reflexivity.
  Qed.

  Record sinv (cap : nat) (shared : bool) (tr : list sevent) (s : sub) : Prop := {
    j_cap : b_cap s = cap;
    j_shared : b_shared s = shared;
    j_read : forall n pos log, find_client n (b_clients s) = Some (Reading pos log) ->
      pos <= length (b_sent s) /\ exists start, read_from cap shared tr n start /\ reads (b_sent s) start log pos;
    j_single : shared = false -> exists c, b_clients s = [(0, c)] /\ (b_kept s = true -> c = Holding);
    j_pump : shared = true -> ~ In SEnd tr -> b_pump s = true;
    j_kept : shared = true -> b_pump s = true -> b_kept s = true }.
  Lemma read_from_snoc cap shared (tr : list sevent) n start e : read_from cap shared tr n start -> read_from cap shared (tr ++ [e]) n start.
  Proof. intros (pre & post & s0 & -> & H). exists pre, (post ++ [e]), s0. rewrite <- app_assoc. auto. Qed.
  Lemma sinv_step cap shared tr s e s' : sexec (started cap shared) tr = Some s -> sinv cap shared tr s -> sstep s e = Some s' -> sinv cap shared (tr ++ [e]) s'.
  Proof.
    intros Hx [Jc Js Jr Jn Jp Jk] St. destruct s as [c sh sent pump kept cl]. cbn [b_cap b_shared b_sent b_pump b_kept b_clients] in *. subst c sh.
    assert (NE : forall e, ~ In SEnd (tr ++ [e]) -> ~ In SEnd tr) by (intros e0 H H'; apply H, in_snoc; auto).
    destruct e as [a| |n|n|n|n]; cbn [sstep b_cap b_shared b_sent b_pump b_kept b_clients] in St.
    - destruct pump; [|discriminate St]. destruct (receivers _) eqn:R in St; injection St as <-.
      + constructor; cbn [b_cap b_shared b_sent b_pump b_kept b_clients]; auto.
        intros n pos log H. destruct (Jr n pos log H) as (L & st & F & Rd). split; [rewrite app_length; lia|]. exists st. split; [apply read_from_snoc, F|apply reads_more, Rd].
      + constructor; cbn [pump_ends b_cap b_shared b_sent b_pump b_kept b_clients]; auto.
        * intros n pos log H. destruct (Jr n pos log H) as (L & st & F & Rd). split; [exact L|]. exists st. split; [apply read_from_snoc, F|exact Rd].
        * intros E. subst shared. apply Jn. reflexivity.
        * intros E _. unfold receivers in R. cbn [b_kept] in R. rewrite Jk in R by auto. discriminate R.
        * discriminate.
    - destruct pump; [|discriminate St]. injection St as <-. constructor; cbn [pump_ends b_cap b_shared b_sent b_pump b_kept b_clients]; auto.
      + intros n pos log H. destruct (Jr n pos log H) as (L & st & F & Rd). split; [exact L|]. exists st. split; [apply read_from_snoc, F|exact Rd].
      + intros E. subst shared. apply Jn. reflexivity.
      + intros E H. exfalso. apply H, in_snoc. auto.
      + discriminate.
    - destruct shared; [|discriminate St]. destruct pump; [|discriminate St]. cbn [andb] in St.
      destruct (find_client n cl) eqn:Ef; [discriminate St|]. injection St as <-. constructor; cbn [with_client b_cap b_shared b_sent b_pump b_kept b_clients]; auto; try discriminate.
      intros m pos log H. rewrite find_set in H. destruct (Nat.eqb m n); [discriminate H|].
      destruct (Jr m pos log H) as (L & st & F & Rd). split; [exact L|]. exists st. split; [apply read_from_snoc, F|exact Rd].
    - destruct (find_client n cl) as [[|pos log|]|] eqn:Ef; try discriminate St. destruct shared; injection St as <-.
      + constructor; cbn [with_client b_cap b_shared b_sent b_pump b_kept b_clients]; auto; try discriminate; [|intros E H; apply Jp; eauto].
        intros m pos log H. rewrite find_set in H. destruct (Nat.eqb m n) eqn:E.
        * apply Nat.eqb_eq in E. subst m. injection H as <- <-. split; [lia|]. eexists. split; [|constructor].
          exists tr, []. eexists. split; [reflexivity|]. split; [exact Hx|]. reflexivity.
        * destruct (Jr m pos log H) as (L & st & F & Rd). split; [exact L|]. exists st. split; [apply read_from_snoc, F|exact Rd].
      + constructor; cbn [with_client b_cap b_shared b_sent b_pump b_kept b_clients]; auto; try discriminate.
        * intros m pos log H. rewrite find_set in H. destruct (Nat.eqb m n) eqn:E.
          -- apply Nat.eqb_eq in E. subst m. injection H as <- <-. split; [lia|]. exists 0. split; [|constructor].
             exists tr, []. eexists. split; [reflexivity|]. split; [exact Hx|]. reflexivity.
          -- destruct (Jr m pos log H) as (L & st & F & Rd). split; [exact L|]. exists st. split; [apply read_from_snoc, F|exact Rd].
        * intros _. destruct (Jn eq_refl) as (c & -> & _). cbn [set_client find_client] in *. destruct (Nat.eqb n 0); [|discriminate Ef].
          eexists. split; [reflexivity|discriminate].
    - destruct (find_client n cl) as [[|pos log|]|] eqn:Ef; try discriminate St.
      destruct (recv cap sent _ pos) as [[r p']|] eqn:Er in St; [|discriminate St].
      assert (Keep : forall r, r <> RClosed -> reads sent pos [r] p' /\ p' <= length sent -> s' = with_client (mksub cap shared sent pump kept cl) n (Reading p' (log ++ [r])) ->
                     sinv cap shared (tr ++ [SRecv n]) s').
      { intros r0 Nr [Rd Lp] ->. constructor; cbn [with_client b_cap b_shared b_sent b_pump b_kept b_clients]; auto.
        - intros m q lg H. rewrite find_set in H. destruct (Nat.eqb m n) eqn:E.
          + apply Nat.eqb_eq in E. subst m. injection H as <- <-. split; [exact Lp|]. destruct (Jr n pos log Ef) as (L & st & F & Rd0).
            exists st. split; [apply read_from_snoc, F|]. eapply reads_snoc; eassumption.
          + destruct (Jr m q lg H) as (L & st & F & Rd0). split; [exact L|]. exists st. split; [apply read_from_snoc, F|exact Rd0].
        - intros E. destruct (Jn E) as (c & -> & K). cbn [set_client find_client] in *. destruct (Nat.eqb n 0) eqn:E0; [|discriminate Ef].
          eexists. split; [reflexivity|]. intros H. rewrite (K H) in Ef. discriminate Ef.
        - intros E H. apply Jp; [exact E|]. eapply NE, H. }
      destruct r as [a|k|].
      + injection St as <-. apply (Keep (RItem a)); [discriminate| |reflexivity]. eapply recv_reads; [exact Er|discriminate].
      + injection St as <-. apply (Keep (RLagged k)); [discriminate| |reflexivity]. eapply recv_reads; [exact Er|discriminate].
      + injection St as <-. constructor; cbn [with_client b_cap b_shared b_sent b_pump b_kept b_clients]; auto.
        * intros m q lg H. rewrite find_set in H. destruct (Nat.eqb m n); [discriminate H|].
          destruct (Jr m q lg H) as (L & st & F & Rd0). split; [exact L|]. exists st. split; [apply read_from_snoc, F|exact Rd0].
        * intros E. destruct (Jn E) as (c & -> & K). cbn [set_client find_client] in *. destruct (Nat.eqb n 0) eqn:E0; [|discriminate Ef].
          eexists. split; [reflexivity|]. intros H. rewrite (K H) in Ef. discriminate Ef.
        * intros E H. apply Jp; [exact E|]. eapply NE, H.
    - assert (Gone : forall k, s' = with_client (mksub cap shared sent pump k cl) n Left -> (shared = true -> k = kept) ->
                     (shared = false -> k = false) -> find_client n cl <> None -> sinv cap shared (tr ++ [SLeave n]) s').
      { intros k -> Ek Nk Nf. constructor; cbn [with_client b_cap b_shared b_sent b_pump b_kept b_clients]; auto.
        - intros m q lg H. rewrite find_set in H. destruct (Nat.eqb m n); [discriminate H|].
          destruct (Jr m q lg H) as (L & st & F & Rd0). split; [exact L|]. exists st. split; [apply read_from_snoc, F|exact Rd0].
        - intros E. destruct (Jn E) as (c & -> & K). cbn [set_client find_client] in *. destruct (Nat.eqb n 0) eqn:E0; [|congruence].
          eexists. split; [reflexivity|]. rewrite (Nk E). discriminate.
        - intros E H. apply Jp; [exact E|]. eapply NE, H.
        - intros E Hp. rewrite Ek by exact E. auto. }
      destruct (find_client n cl) as [[|pos log|]|] eqn:Ef; try discriminate St.
      + injection St as <-. destruct shared.
        * apply (Gone kept); try reflexivity; discriminate.
        * apply (Gone false); try reflexivity; discriminate.
      + injection St as <-. apply (Gone kept); try reflexivity; [|discriminate].
        intros E. destruct (Jn E) as (c & -> & K). cbn [find_client] in Ef. destruct (Nat.eqb n 0); [|discriminate Ef].
        destruct kept; [|reflexivity]. rewrite K in Ef by reflexivity. discriminate Ef.
  Qed.
  Lemma sinv_exec cap shared tr : forall s, sexec (started cap shared) tr = Some s -> sinv cap shared tr s.
  Proof.
    induction tr as [|e tr IH] using rev_ind; intros s H.
    - injection H as <-. constructor; cbn [started b_cap b_shared b_sent b_pump b_kept b_clients]; auto.
      + intros n pos log H. cbn [find_client] in H. destruct (Nat.eqb n 0); discriminate H.
      + intros _. exists Holding. auto.
    - assert (H' := H). rewrite sexec_snoc in H'. destruct (sexec (started cap shared) tr) as [s0|] eqn:E; [|discriminate H'].
      eapply sinv_step; [exact E|apply IH; reflexivity|exact H'].
  Qed.

  Lemma clients_read cap shared tr (s : sub) n pos log : sexec (started cap shared) tr = Some s ->
    find_client n (b_clients s) = Some (Reading pos log) ->
    pos <= length (b_sent s) /\ exists start, read_from cap shared tr n start /\ reads (b_sent s) start log pos.
  Proof. intros H. exact (j_read _ _ _ _ (sinv_exec cap shared tr s H) n pos log). Qed.
  Lemma read_unshared cap (tr : list sevent) n start : read_from cap false tr n start -> start = 0.
  Proof. intros (pre & post & s0 & _ & _ & H). exact H. Qed.
  Lemma leader_reads_all cap tr (s : sub) n pos (log : list recvd) : sexec (started cap false) tr = Some s ->
    find_client n (b_clients s) = Some (Reading pos log) ->
    reads (b_sent s) 0 log pos /\ (missed log = 0 -> items log = firstn pos (b_sent s)).
  Proof.
    intros H F. destruct (clients_read _ _ _ _ _ _ _ H F) as (_ & st & R & Rd). rewrite (read_unshared _ _ _ _ R) in Rd.
    split; [exact Rd|]. intros M. rewrite (reads_all _ _ _ _ Rd M), Nat.sub_0_r. reflexivity.
  Qed.
  Lemma unshared_stops cap tr (s : sub) a : sexec (started cap false) tr = Some s -> deserted s -> b_pump s = true ->
    sstep s (SItem a) = Some (pump_ends s).
  Proof.
    intros H D P. destruct (j_single _ _ _ _ (sinv_exec cap false tr s H) eq_refl) as (c & Ec & K).
    assert (c = Left) by (apply (D 0); rewrite Ec; left; reflexivity). subst c.
    cbn [sstep]. rewrite P. unfold receivers. rewrite Ec. destruct (b_kept s); [discriminate (K eq_refl)|]. reflexivity.
  Qed.
  Lemma shared_never_stops cap tr (s : sub) : sexec (started cap true) tr = Some s -> ~ In SEnd tr -> b_pump s = true.
  Proof. intros H. exact (j_pump _ _ _ _ (sinv_exec cap true tr s H) eq_refl). Qed.
  Lemma sends_go_on (s : sub) l : b_pump s = true -> b_kept s = true ->
    exists s', sexec s (map SItem l) = Some s' /\ b_pump s' = true /\ b_sent s' = b_sent s ++ l.
  Proof.
    revert s; induction l as [|a l IH]; intros s P K.
    - exists s. cbn. rewrite app_nil_r. auto.
    - cbn [map sexec sstep]. rewrite P. unfold receivers. rewrite K. cbn [orb].
      destruct (IH (mksub (b_cap s) (b_shared s) (b_sent s ++ [a]) true true (b_clients s)) eq_refl eq_refl) as (s' & H & P' & E).
      exists s'. split; [exact H|]. split; [exact P'|]. rewrite E. cbn [b_sent]. rewrite <- app_assoc. reflexivity.
  Qed.
End C.

Lemma shared_leak : exists s, sexec (A := nat) (started 16 true) [SRead 0; SItem 1; SRecv 0; SLeave 0] = Some s /\ deserted s /\
  forall l, exists s', sexec s (map SItem l) = Some s' /\ b_pump s' = true /\ b_sent s' = b_sent s ++ l.
Proof.
  eexists. split; [vm_compute; reflexivity|]. split.
  - intros n c [H|[]]. injection H as _ <-. reflexivity.
  - intros l. apply sends_go_on; reflexivity.
Qed.
Lemma shared_leader_misses : exists s, sexec (A := nat) (started 16 true) [SItem 1; SRead 0; SItem 2; SRecv 0] = Some s /\
  find_client 0 (b_clients s) = Some (Reading 2 [RItem 2]) /\ b_sent s = [1; 2].
Proof. eexists. split; [vm_compute; reflexivity|]. split; vm_compute; reflexivity. Qed.
Lemma failure_dropped : exists u0 tr (u : buffer (nat + nat)), buffered 1 = Some u0 /\ bexec u0 tr = Some u /\
  In (inr 13) (produced tr) /\ u_rx u = true /\ u_end u = true /\ u_got u = [inl 1].
Proof.
  eexists. exists [BItem (inl 1); BItem (inr 13); BEnd; BRecv; BRecv]. eexists. split; [reflexivity|]. split; [vm_compute; reflexivity|].
  vm_compute. intuition.
Qed.
