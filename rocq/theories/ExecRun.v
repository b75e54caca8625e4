(** Proofs about runs of plans: what is sent, what is reported, and that nothing gets stuck. *)
From Coq Require Import String List NArith Bool Arith Lia Permutation.
From Verif Require Import StrOrd JsonModel MergeModel MergeSpec Ast TraverseModel TraverseSpec
  RewriteModel RewriteProofs RequiresModel EntityModel EntitySpec EntityProofs ExecModel ExecSpec.
Import ListNotations.
Local Open Scope list_scope.

Definition opt_all (P : node -> Prop) (o : option node) : Prop := match o with Some n => P n | None => True end.
Section Ind.
  Variable P : node -> Prop.
  Hypothesis Hf : forall f, P (NFetch f).
  Hypothesis Hb : forall b, P (NBatch b).
  Hypothesis Hl : forall p n, P n -> P (NFlatten p n).
  Hypothesis Hs : forall l, Forall P l -> P (NSequence l).
  Hypothesis Hp : forall l, Forall P l -> P (NParallel l).
  Hypothesis Hc : forall v i e, opt_all P i -> opt_all P e -> P (NCondition v i e).
  Hypothesis Ho : P NOther.
  Fixpoint node_ind' (n : node) : P n :=
    let all := fix all (l : list node) : Forall P l :=
                 match l with
                 | [] => Forall_nil P
                 | x :: l' => Forall_cons x (node_ind' x) (all l')
                 end in
    match n with
    | NFetch f => Hf f
    | NBatch b => Hb b
    | NFlatten p n' => Hl p n' (node_ind' n')
    | NSequence l => Hs l (all l)
    | NParallel l => Hp l (all l)
    | NCondition v i e =>
        Hc v i e (match i return opt_all P i with Some n' => node_ind' n' | None => I end)
                 (match e return opt_all P e with Some n' => node_ind' n' | None => I end)
    | NOther => Ho
    end.
End Ind.

Scheme run_mind := Minimality for run Sort Prop
  with run_list_mind := Minimality for run_list Sort Prop.
Combined Scheme run_both from run_mind, run_list_mind.

Lemma sent_app a b : sent (a ++ b) = sent a ++ sent b.
Proof. apply flat_map_app. Qed.
Lemma finished_app a b : finished (a ++ b) = finished a ++ finished b.
Proof. apply flat_map_app. Qed.
Lemma sent_map_sent ks : sent (map Sent ks) = ks.
Proof. induction ks as [|k ks IH]; [reflexivity|]. cbn. f_equal. exact IH. Qed.
Lemma sent_map_done ks : sent (map Done ks) = [].
Proof. induction ks as [|k ks IH]; [reflexivity|]. cbn. exact IH. Qed.
Lemma finished_map_sent ks : finished (map Sent ks) = [].
Proof. induction ks as [|k ks IH]; [reflexivity|]. cbn. exact IH. Qed.
Lemma finished_map_done ks : finished (map Done ks) = ks.
Proof. induction ks as [|k ks IH]; [reflexivity|]. cbn. f_equal. exact IH. Qed.

Section R.
  Variable ryu : N -> string.
  Variable pt : ptypes.
  Variable xxh : list N -> N.
  Variable show : list fseg -> string.
  Variable vars : option (list (string * value)).

  (** ** One answer *)
  (** the data and the new errors depend on the data only *)
  Lemma process_job_split k o c c' : process_job pt show k o c = Some c' ->
    exists es, c_errors c' = c_errors c ++ es /\
    forall es0, process_job pt show k o (mkctx (c_data c) es0) = Some (mkctx (c_data c') (es0 ++ es)).
  Proof.
    destruct o as [pre e|pre r]; unfold process_job.
    - intros E. injection E as <-. exists (pre ++ [e]). split; [reflexivity|]. intros es0. reflexivity.
    - destruct k as [f [p|]|f p j|b vs sts]; cbn [c_data c_errors].
      + destruct (apply_rewrites pt (f_out f) (r_data r)); [|discriminate]. destruct (visit_mut _ _ _ _ _ _ _) as [d' s].
        intros E. injection E as <-. eexists. split; [reflexivity|]. reflexivity.
      + destruct (apply_rewrites pt (f_out f) (r_data r)); [|discriminate].
        intros E. injection E as <-. eexists. split; [reflexivity|]. reflexivity.
      + destruct (process_flatten _ _ _ _ _ _ _ _) as [x|]; [|discriminate].
        intros E. injection E as <-. eexists. split; [reflexivity|]. reflexivity.
      + destruct (process_batch _ _ _ _ _ _) as [x|]; [|discriminate].
        intros E. injection E as <-. eexists. split; [reflexivity|]. reflexivity.
  Qed.

  Lemma process_job_failure k o c c' es : process_job pt show k o c = Some c' -> failure o = Some es ->
    c' = mkctx (c_data c) (c_errors c ++ es).
  Proof. destruct o as [pre e|pre r]; intros E F; [|discriminate F]. injection F as <-. injection E as <-. reflexivity. Qed.

  Section A.
  Variable answer : job_kind -> outcome.

  Lemma process_all_split ks : forall c c', process_all pt show answer ks c = Some c' ->
    exists es, c_errors c' = c_errors c ++ es /\
    (forall k fs, In k ks -> failure (answer k) = Some fs -> incl fs es) /\
    forall es0, process_all pt show answer ks (mkctx (c_data c) es0) = Some (mkctx (c_data c') (es0 ++ es)).
  Proof.
    induction ks as [|k ks IH]; intros c c' E; cbn [process_all] in E.
    - injection E as <-. exists []. rewrite app_nil_r. split; [reflexivity|]. split; [intros k fs []|].
      intros es0. cbn. rewrite app_nil_r. destruct c. reflexivity.
    - destruct (process_job pt show k (answer k) c) as [c1|] eqn:E1; [|discriminate E].
      destruct (process_job_split _ _ _ _ E1) as (es1 & H1 & R1). destruct (IH _ _ E) as (es2 & H2 & F2 & R2).
      exists (es1 ++ es2). split; [rewrite H2, H1, app_assoc; reflexivity|]. split.
      + intros k' fs [<-|I] Ff x Hx; apply in_or_app.
        * left. pose proof (process_job_failure _ _ _ _ _ E1 Ff) as ->. cbn [c_errors] in H1. apply app_inv_head in H1. subst es1. exact Hx.
        * right. eapply F2; eassumption.
      + intros es0. cbn [process_all]. rewrite R1, R2, app_assoc. reflexivity.
  Qed.

  (** leaving the failed requests out changes nothing but the errors *)
  Lemma process_all_successes ks : forall c c', process_all pt show answer ks c = Some c' ->
    exists c'', process_all pt show answer (filter (fun k => succeeded (answer k)) ks) c = Some c'' /\ c_data c'' = c_data c'.
  Proof.
    induction ks as [|k ks IH]; intros c c' E; cbn [process_all] in E; [exists c'; auto|].
    destruct (process_job pt show k (answer k) c) as [c1|] eqn:E1; [|discriminate E].
    destruct (IH _ _ E) as (c2 & E2 & D2). cbn [filter]. destruct (answer k) as [pre e|pre r] eqn:A; cbn [succeeded].
    - assert (Ec : c1 = mkctx (c_data c) (c_errors c ++ pre ++ [e])) by (eapply process_job_failure; [exact E1|reflexivity]).
      subst c1. destruct (process_all_split _ _ _ E2) as (es & _ & _ & R). cbn [c_data] in R.
      specialize (R (c_errors c)). exists (mkctx (c_data c2) (c_errors c ++ es)). split; [|exact D2].
      destruct c as [d es']. exact R.
    - cbn [process_all]. rewrite A, E1. exists c2. auto.
  Qed.

  (** ** Runs *)
  Local Notation run := (run ryu pt xxh show vars answer).
  Local Notation run_list := (run_list ryu pt xxh show vars answer).

  Lemma run_reports :
    (forall n c tr c', run n c tr c' -> Permutation (sent tr) (finished tr) /\
       exists es, c_errors c' = c_errors c ++ es /\
                  forall k fs, In k (sent tr) -> failure (answer k) = Some fs -> incl fs es) /\
    (forall l c tr c', run_list l c tr c' -> Permutation (sent tr) (finished tr) /\
       exists es, c_errors c' = c_errors c ++ es /\
                  forall k fs, In k (sent tr) -> failure (answer k) = Some fs -> incl fs es).
  Proof.
    apply (run_both ryu pt xxh show vars answer).
    - intros l c ks ks' c' _ P E. rewrite sent_app, finished_app, sent_map_sent, sent_map_done, finished_map_sent, finished_map_done.
      cbn [app]. rewrite app_nil_r. split; [exact P|]. destruct (process_all_split _ _ _ E) as (es & H & F & _).
      exists es. split; [exact H|]. intros k fs I. apply F. eapply Permutation_in; eassumption.
    - auto.
    - auto.
    - intros. split; [constructor|]. exists []. rewrite app_nil_r. split; [reflexivity|]. intros k fs [].
    - intros n c k c' _ _ E. cbn. split; [apply Permutation_refl|]. destruct (process_job_split _ _ _ _ E) as (es & H & _).
      exists es. split; [exact H|]. intros k' fs [<-|[]] F. pose proof (process_job_failure _ _ _ _ _ E F) as ->.
      cbn [c_errors] in H. apply app_inv_head in H. subst es. apply incl_refl.
    - intros. split; [constructor|]. exists []. rewrite app_nil_r. split; [reflexivity|]. intros k fs [].
    - intros c. split; [constructor|]. exists []. rewrite app_nil_r. split; [reflexivity|]. intros k fs [].
    - intros n l c tr1 c1 tr2 c2 _ [P1 (es1 & H1 & F1)] _ [P2 (es2 & H2 & F2)]. rewrite sent_app, finished_app.
      split; [apply Permutation_app; assumption|]. exists (es1 ++ es2). split; [rewrite H2, H1, app_assoc; reflexivity|].
      intros k fs I F x Hx. apply in_app_iff in I. apply in_or_app. destruct I as [I|I]; [left; eapply F1|right; eapply F2]; eassumption.
  Qed.

  Lemma process_all_app ks1 : forall ks2 c, process_all pt show answer (ks1 ++ ks2) c =
    match process_all pt show answer ks1 c with Some c1 => process_all pt show answer ks2 c1 | None => None end.
  Proof.
    induction ks1 as [|k ks1 IH]; intros ks2 c; [reflexivity|]. cbn [app process_all].
    destruct (process_job pt show k (answer k) c); [apply IH|reflexivity].
  Qed.
  Lemma run_processed :
    (forall n c tr c', run n c tr c' -> process_all pt show answer (finished tr) c = Some c') /\
    (forall l c tr c', run_list l c tr c' -> process_all pt show answer (finished tr) c = Some c').
  Proof.
    apply (run_both ryu pt xxh show vars answer); intros.
    - rewrite finished_app, finished_map_sent, finished_map_done. assumption.
    - assumption.
    - assumption.
    - reflexivity.
    - cbn. rewrite H1. reflexivity.
    - reflexivity.
    - reflexivity.
    - rewrite finished_app, process_all_app, H0. assumption.
  Qed.
  Lemma run_successes n c tr c' : run n c tr c' ->
    exists c'', process_all pt show answer (filter (fun k => succeeded (answer k)) (finished tr)) c = Some c'' /\
                c_data c'' = c_data c'.
  Proof. intros E. apply process_all_successes. apply (proj1 run_processed _ _ _ _ E). Qed.

  Lemma run_list_app l1 : forall l2 c tr c', run_list (l1 ++ l2) c tr c' ->
    exists tr1 c1 tr2, run_list l1 c tr1 c1 /\ run_list l2 c1 tr2 c' /\ tr = tr1 ++ tr2.
  Proof.
    induction l1 as [|n l1 IH]; intros l2 c tr c' E.
    - exists [], c, tr. split; [constructor|]. split; [exact E|reflexivity].
    - cbn in E. inversion E as [|n' l' c0 trA cA trB cB E1 E2]; subst. destruct (IH _ _ _ _ E2) as (tr1 & c1 & tr2 & R1 & R2 & ->).
      exists (trA ++ tr1), c1, tr2. split; [econstructor; eassumption|]. split; [exact R2|]. rewrite app_assoc. reflexivity.
  Qed.

  Lemma sequence_splits l1 n l2 c tr c' : run (NSequence (l1 ++ n :: l2)) c tr c' ->
    exists tr1 c1 tr2 c2 tr3, run (NSequence l1) c tr1 c1 /\ run n c1 tr2 c2 /\ run (NSequence l2) c2 tr3 c' /\
      tr = tr1 ++ tr2 ++ tr3 /\ Permutation (sent tr1) (finished tr1).
  Proof.
    intros E. assert (E' : run_list (l1 ++ n :: l2) c tr c').
    { inversion E as [|? ? ? ? E'| | |? ? ? ? F|? ? F]; subst; [exact E'|destruct F|destruct F]. }
    destruct (run_list_app _ _ _ _ _ E') as (tr1 & c1 & tr2 & R1 & R2 & ->).
    inversion R2 as [|n' l' c0 trA cA trB cB E1 E2]; subst. exists tr1, c1, trA, cA, trB.
    split; [constructor; exact R1|]. split; [exact E1|]. split; [constructor; exact E2|]. split; [reflexivity|].
    exact (proj1 (proj2 run_reports _ _ _ _ R1)).
  Qed.

  (** ** Every fetch gets its turn *)
  Lemma prepare_leaf_request m d k : prepare_leaf ryu pt xxh m d = PJob k -> request_of m k.
  Proof.
    destruct m as [f|b|p m|l|l|v i e|]; cbn [prepare_leaf]; intros E; try discriminate E.
    - injection E as <-. reflexivity.
    - destruct (prepare_batch ryu pt xxh (b_aliases b) d []) as [[vs sts]|]; [|discriminate E].
      destruct (forallb _ sts); [discriminate E|]. injection E as <-. reflexivity.
    - destruct m as [f|b|p' m|l|l|v i e|]; try discriminate E. destruct (f_requires f) as [sels|] eqn:Q.
      + destruct (prepare_flatten _ _ _ _ _ _ _) as [[j|]|]; try discriminate E. injection E as <-. cbn. rewrite Q. repeat split. discriminate.
      + injection E as <-. cbn. auto.
  Qed.

  Lemma prepare_job_chosen n d : leaf n = true ->
    match chosen vars n with
    | [] => prepare_job ryu pt xxh vars n d = PNone
    | [m] => prepare_job ryu pt xxh vars n d = prepare_leaf ryu pt xxh m d
    | _ => False
    end.
  Proof.
    induction n as [f|b|p n IH|l IH|l IH|v i e IHi IHe|] using node_ind'; intros Lf; try discriminate Lf; try reflexivity.
    - destruct n; try discriminate Lf. reflexivity.
    - cbn [leaf] in Lf. apply andb_prop in Lf. destruct Lf as [Li Le]. cbn [chosen prepare_job].
      destruct vars as [vs|]; [|reflexivity]. destruct (get v vs) as [x|]; [|reflexivity].
      destruct x as [|fb|iz|u|[|]|s|r|l|o]; try (destruct e as [n'|]; [apply IHe, Le|reflexivity]).
      destruct i as [n'|]; [apply IHi, Li|reflexivity].
  Qed.

  Lemma prepare_all_asked l d : forallb leaf l = true -> forall ks, prepare_all ryu pt xxh vars l d = Some ks ->
    (forall m, In m (flat_map (chosen vars) l) ->
       match prepare_leaf ryu pt xxh m d with PJob k => In k ks | PNone => True | PPanic => False end) /\
    (forall k, In k ks -> exists m, In m (flat_map (chosen vars) l) /\ prepare_leaf ryu pt xxh m d = PJob k).
  Proof.
    induction l as [|n l IH]; intros Lf ks E.
    - injection E as <-. split; intros x [].
    - cbn [forallb] in Lf. apply andb_prop in Lf. destruct Lf as [Ln Ll]. cbn [prepare_all] in E.
      pose proof (prepare_job_chosen n d Ln) as C. cbn [flat_map].
      destruct (prepare_all ryu pt xxh vars l d) as [ks'|] eqn:E'; [|destruct (prepare_job ryu pt xxh vars n d); discriminate E].
      destruct (IH Ll ks' eq_refl) as [A B].
      destruct (chosen vars n) as [|m [|m2 ms]]; [| |destruct C].
      + rewrite C in E. injection E as <-. cbn [app]. split; assumption.
      + rewrite C in E. cbn [app]. destruct (prepare_leaf ryu pt xxh m d) as [| |k] eqn:P; [discriminate E| |]; injection E as <-; split.
        * intros x [<-|I]; [rewrite P; exact Logic.I|apply A, I].
        * intros k I. destruct (B k I) as (x & I1 & I2). exists x. split; [right; exact I1|exact I2].
        * intros x [<-|I]; [rewrite P; left; reflexivity|]. specialize (A x I). destruct (prepare_leaf ryu pt xxh x d); [exact A|exact A|right; exact A].
        * intros k0 [<-|I]; [exists m; split; [left; reflexivity|exact P]|]. destruct (B k0 I) as (x & I1 & I2). exists x. split; [right; exact I1|exact I2].
  Qed.

  Lemma chosen_branch v i e : chosen vars (NCondition v i e) =
    match condition_branch vars v i e with Some n => chosen vars n | None => [] end.
  Proof.
    cbn [chosen]. unfold condition_branch. destruct vars as [vs|]; [|reflexivity]. destruct (get v vs) as [x|]; [|reflexivity].
    destruct x as [|fb|iz|u|[|]|s|r|l|o]; reflexivity.
  Qed.
  Lemma shaped_branch v i e n : shaped (NCondition v i e) = true -> condition_branch vars v i e = Some n -> shaped n = true.
  Proof.
    cbn [shaped]. intros H E. apply andb_prop in H. destruct H as [Hi He]. unfold condition_branch in E.
    destruct vars as [vs|]; [|discriminate E]. destruct (get v vs) as [x|]; [|discriminate E].
    destruct x as [|fb|iz|u|[|]|s|r|l|o]; subst; assumption.
  Qed.

  Lemma every_fetch :
    (forall n c tr c', run n c tr c' -> shaped n = true ->
       (forall m, In m (chosen vars n) -> exists d, asked ryu pt xxh m d tr) /\
       (forall k, In k (sent tr) -> exists m, In m (chosen vars n) /\ request_of m k)) /\
    (forall l c tr c', run_list l c tr c' -> forallb shaped l = true ->
       (forall m, In m (flat_map (chosen vars) l) -> exists d, asked ryu pt xxh m d tr) /\
       (forall k, In k (sent tr) -> exists m, In m (flat_map (chosen vars) l) /\ request_of m k)).
  Proof.
    apply (run_both ryu pt xxh show vars answer).
    - intros l c ks ks' c' E P _ Sh. cbn [shaped] in Sh. destruct (prepare_all_asked l (c_data c) Sh ks E) as [A B].
      assert (Es : sent (map Sent ks ++ map Done ks') = ks) by (rewrite sent_app, sent_map_sent, sent_map_done, app_nil_r; reflexivity).
      split.
      + intros m Im. exists (c_data c). unfold asked. specialize (A m Im).
        destruct (prepare_leaf ryu pt xxh m (c_data c)) as [| |k] eqn:Pm; [exact A|exact A|]. rewrite Es. split; [exact A|].
        eapply prepare_leaf_request. exact Pm.
      + intros k Ik. rewrite Es in Ik. destruct (B k Ik) as (m & I1 & I2). exists m. split; [exact I1|].
        eapply prepare_leaf_request. exact I2.
    - intros l c tr c' _ IH Sh. exact (IH Sh).
    - intros v i e n c tr c' E _ IH Sh. rewrite chosen_branch, E. apply IH. eapply shaped_branch; eassumption.
    - intros v i e c E Sh. rewrite chosen_branch, E. split; intros x [].
    - intros n c k c' Nl E _ Sh.
      assert (C : chosen vars n = [n] /\ prepare_leaf ryu pt xxh n (c_data c) = PJob k).
      { destruct n as [f|b|p n|l|l|v i e|]; try destruct Nl; try discriminate E; try (split; [reflexivity|exact E]).
        destruct n; try discriminate Sh. split; [reflexivity|exact E]. }
      destruct C as [C1 C2]. rewrite C1. split.
      + intros m [<-|[]]. exists (c_data c). unfold asked. rewrite C2. split; [left; reflexivity|]. eapply prepare_leaf_request. exact C2.
      + intros k' [<-|[]]. exists n. split; [left; reflexivity|]. eapply prepare_leaf_request. exact C2.
    - intros n c Nl E Sh. split; [|intros k []]. intros m Im. exists (c_data c). unfold asked.
      assert (Em : m = n /\ prepare_leaf ryu pt xxh n (c_data c) = PNone).
      { destruct n as [f|b|p n|l|l|v i e|]; try destruct Nl; try destruct Im as [<-|[]]; try (split; [reflexivity|exact E]); try destruct Im.
        destruct n; try discriminate Sh. destruct Im as [<-|[]]. split; [reflexivity|exact E]. }
      destruct Em as [-> Em]. rewrite Em. exact I.
    - intros c _. split; intros x [].
    - intros n l c tr1 c1 tr2 c2 _ IH1 _ IH2 Sh. cbn [forallb] in Sh. apply andb_prop in Sh. destruct Sh as [Sn Sl].
      destruct (IH1 Sn) as [A1 B1]. destruct (IH2 Sl) as [A2 B2]. cbn [flat_map]. split.
      + intros m Im. apply in_app_iff in Im. destruct Im as [Im|Im]; [destruct (A1 m Im) as [d Hd]|destruct (A2 m Im) as [d Hd]];
          exists d; unfold asked in *; destruct (prepare_leaf ryu pt xxh m d); try exact Hd; destruct Hd as [I1 I2];
          (split; [|exact I2]); rewrite sent_app; apply in_or_app; [left|right]; exact I1.
      + intros k Ik. rewrite sent_app in Ik. apply in_app_iff in Ik. destruct Ik as [Ik|Ik].
        * destruct (B1 k Ik) as (m & I1 & I2). exists m. split; [apply in_or_app; left; exact I1|exact I2].
        * destruct (B2 k Ik) as (m & I1 & I2). exists m. split; [apply in_or_app; right; exact I1|exact I2].
  Qed.
  End A.

  (** what a wave sends does not depend on the answers *)
  Lemma wave_independent answer1 answer2 l c tr1 c1 tr2 c2 :
    run ryu pt xxh show vars answer1 (NParallel l) c tr1 c1 -> run ryu pt xxh show vars answer2 (NParallel l) c tr2 c2 ->
    sent tr1 = sent tr2.
  Proof.
    intros E1 E2.
    inversion E1 as [? ? ks1 ks1' ? P1 _ _| | | |? ? ? ? F|? ? F]; subst; [|destruct F|destruct F].
    inversion E2 as [? ? ks2 ks2' ? P2 _ _| | | |? ? ? ? F|? ? F]; subst; [|destruct F|destruct F].
    rewrite !sent_app, !sent_map_sent, !sent_map_done. congruence.
  Qed.

  (** ** Nothing gets stuck *)
  Lemma rename_total r v : sound_rewrite r = true -> apply_rewrite pt r v <> None.
  Proof.
    destruct r as [p to|p x]; cbn [sound_rewrite apply_rewrite]; [|discriminate]. intros H.
    destruct (rev p) as [|[k|ts] q] eqn:E; try discriminate H.
    assert (Ep : p = rev q ++ [RKey k]) by (rewrite <- (rev_involutive p), E; reflexivity). subst p.
    destruct (rename_effect pt to k (rev q) v) as (v' & Ev & _). rewrite Ev. discriminate.
  Qed.
  Lemma rewrites_total rs : forallb sound_rewrite rs = true -> forall v, apply_rewrites pt rs v <> None.
  Proof.
    induction rs as [|r rs IH]; intros H v; [discriminate|]. cbn [forallb] in H. apply andb_prop in H. destruct H as [H1 H2].
    cbn [apply_rewrites]. pose proof (rename_total r v H1) as T. destruct (apply_rewrite pt r v); [apply IH, H2|contradiction].
  Qed.
  Lemma map_opt_total {A} (f : A -> option A) l : (forall x, f x <> None) -> map_opt f l <> None.
  Proof.
    intros H. induction l as [|x l IH]; [discriminate|]. cbn. specialize (H x). destruct (f x); [|contradiction].
    destruct (map_opt f l); [discriminate|contradiction].
  Qed.

  Lemma cat_opt_total {A} (f : A -> option (list N)) l : Forall (fun x => f x <> None) l -> cat_opt f l <> None.
  Proof.
    induction 1 as [|x l H _ IH]; [discriminate|]. cbn. destruct (f x); [|contradiction]. destruct (cat_opt f l); [discriminate|contradiction].
  Qed.
  Lemma hash_item_total x : spreadless x = true -> forall o, hash_item pt x o <> None.
  Proof.
    induction x as [n a args inc skip om sub IH|t inc skip sub IH|n] using sel_ind'; cbn [spreadless]; intros H o; [| |discriminate H].
    - assert (F : forall o', cat_opt (fun y => hash_item pt y o') sub <> None).
      { intros o'. apply cat_opt_total. rewrite Forall_forall in *. rewrite forallb_forall in H. intros y Hy. apply IH; [exact Hy|apply H, Hy]. }
      cbn [hash_item]. destruct (get n o) as [v|]; [|discriminate].
      assert (T : match sub with
                  | [] => Some (hash_value v)
                  | _ => (fix hv (v : value) : option (list N) :=
                          match v with
                          | VObj o' => cat_opt (fun y => hash_item pt y o') sub
                          | VArr l => cat_opt hv l
                          | _ => Some (hash_value v)
                          end) v
                  end <> None).
      { destruct sub as [|s sub]; [discriminate|].
        induction v as [|fbits|iz|un|bb|str|raw|l IHl|o' IHo] using value_ind'; try discriminate.
        - apply cat_opt_total. exact IHl.
        - apply F. }
      match goal with |- context [match ?e with Some _ => _ | None => _ end] => destruct e; [discriminate|contradiction] end.
    - cbn [hash_item]. cbv zeta. destruct (satisfies pt _ t); [|discriminate]. apply cat_opt_total.
      rewrite Forall_forall in *. rewrite forallb_forall in H. intros y Hy. apply IH; [exact Hy|apply H, Hy].
  Qed.
  Lemma hash_with_total sels v : forallb spreadless sels = true -> hash_with pt sels v <> None.
  Proof.
    intros H. induction v as [|fbits|iz|un|bb|str|raw|l IHl|o' IHo] using value_ind'; destruct sels as [|s sels]; try discriminate.
    - cbn [hash_with]. apply cat_opt_total. exact IHl.
    - cbn [hash_with]. apply cat_opt_total. rewrite Forall_forall, forallb_forall in *. intros y Hy. apply hash_item_total, H, Hy.
  Qed.

  Lemma add_entities_total sels rws : forallb spreadless sels = true -> forallb sound_rewrite rws = true ->
    forall es s, add_entities ryu pt xxh sels rws es s <> None.
  Proof.
    intros Hs Hr. induction es as [|e es IH]; intros s; [discriminate|]. cbn [add_entities].
    assert (T : add_entity ryu pt xxh sels rws e s <> None).
    { unfold add_entity. destruct (is_null e); [discriminate|]. pose proof (hash_with_total sels e Hs) as H.
      destruct (hash_with pt sels e) as [b|]; [|contradiction]. cbv zeta. destruct (nget (xxh b) (ps_index s)); [discriminate|].
      pose proof (rewrites_total rws Hr e) as T. destruct (apply_rewrites pt rws e) as [e'|]; [|contradiction].
      destruct (project_requires _ _ _ _ _ _ _) as [[|] buf]; discriminate. }
    destruct (add_entity ryu pt xxh sels rws e s); [apply IH|contradiction].
  Qed.

  Definition job_sound (k : job_kind) : bool :=
    match k with
    | KFetch f _ | KFlatten f _ _ => sound_fetch f
    | KBatch _ _ sts => forallb (fun s => sound_alias (as_alias s)) sts
    end.

  Lemma prepare_batch_total al data : forallb sound_alias al = true -> forall vs,
    exists vs' sts, prepare_batch ryu pt xxh al data vs = Some (vs', sts) /\ forallb (fun s => sound_alias (as_alias s)) sts = true.
  Proof.
    induction al as [|a al IH]; intros H vs; [exists vs, []; split; reflexivity|].
    cbn [forallb] in H. apply andb_prop in H. destruct H as [Ha Hl]. cbn [prepare_batch].
    unfold sound_alias in Ha. pose proof Ha as Ha0. apply andb_prop in Ha. destruct Ha as [Ha Hq]. apply andb_prop in Ha. destruct Ha as [Hi Ho].
    assert (W : forall gs s, walk_groups ryu pt xxh (a_requires a) (a_in a) gs data s <> None).
    { induction gs as [|p gs IHg]; intros s; [discriminate|]. cbn [walk_groups].
      pose proof (add_entities_total (a_requires a) (a_in a) Hq Hi (visit pt p data) (mkps [] (ps_index s) (ps_count s) (ps_buf s))) as T.
      destruct (add_entities _ _ _ _ _ _ _) as [s'|]; [|contradiction]. specialize (IHg s').
      destruct (walk_groups _ _ _ _ _ _ _ _) as [[r s2]|]; [discriminate|contradiction]. }
    unfold prepare_alias. specialize (W (groups (a_paths a) []) (mkps [] [] 0 "[")).
    destruct (walk_groups _ _ _ _ _ _ _ _) as [[hs s]|]; [|contradiction].
    match goal with |- context [prepare_batch ryu pt xxh al data ?v] => destruct (IH Hl v) as (vs' & sts & E & S) end.
    rewrite E. eexists. eexists. split; [reflexivity|]. cbn [forallb as_alias]. rewrite S, andb_true_r. exact Ha0.
  Qed.

  Lemma prepare_leaf_total n d : sound n = true -> prepare_leaf ryu pt xxh n d <> PPanic /\
    forall k, prepare_leaf ryu pt xxh n d = PJob k -> job_sound k = true.
  Proof.
    intros S. destruct n as [f|b|p n|l|l|v i e|]; cbn [prepare_leaf]; try (split; [discriminate|intros k E; discriminate E]).
    - split; [discriminate|]. intros k E. injection E as <-. exact S.
    - cbn [sound] in S. destruct (prepare_batch_total (b_aliases b) d S []) as (vs & sts & E & J). rewrite E.
      destruct (forallb (fun s => is_nil (as_index s)) sts); (split; [discriminate|]); intros k Ek; [discriminate Ek|]. injection Ek as <-. exact J.
    - destruct n as [f|b|p' n|l|l|v i e|]; try (split; [discriminate|intros k E; discriminate E]). cbn [sound] in S.
      destruct (f_requires f) as [sels|] eqn:Q; [|split; [discriminate|intros k E; injection E as <-; exact S]].
      pose proof S as S0. unfold sound_fetch in S0. rewrite Q in S0. apply andb_prop in S0. destruct S0 as [S0 Sq]. apply andb_prop in S0. destruct S0 as [Si So].
      unfold prepare_flatten. pose proof (add_entities_total sels (f_in f) Sq Si (visit pt p d) (mkps [] [] 0 "[")) as T.
      destruct (add_entities _ _ _ _ _ _ _) as [s|]; [|contradiction].
      destruct (is_nil (ps_index s)); (split; [discriminate|]); intros k E; [discriminate E|]. injection E as <-. exact S.
  Qed.

  Lemma prepare_job_total n d : sound n = true -> prepare_job ryu pt xxh vars n d <> PPanic /\
    forall k, prepare_job ryu pt xxh vars n d = PJob k -> job_sound k = true.
  Proof.
    induction n as [f|b|p n IH|l IH|l IH|v i e IHi IHe|] using node_ind'; intros S;
      try (match goal with |- context [prepare_job ryu pt xxh vars ?n d] =>
             change (prepare_job ryu pt xxh vars n d) with (prepare_leaf ryu pt xxh n d) end; apply prepare_leaf_total; exact S).
    cbn [sound] in S. apply andb_prop in S. destruct S as [Si Se]. cbn [prepare_job].
    destruct vars as [vs|]; [|split; [discriminate|intros k E; discriminate E]].
    destruct (get v vs) as [x|]; [|split; [discriminate|intros k E; discriminate E]].
    destruct x as [|fb|iz|u|[|]|s|r|l|o]; try (destruct e as [n'|]; [apply IHe, Se|split; [discriminate|intros k E; discriminate E]]).
    destruct i as [n'|]; [apply IHi, Si|split; [discriminate|intros k E; discriminate E]].
  Qed.

  Lemma prepare_all_total l d : forallb sound l = true -> exists ks, prepare_all ryu pt xxh vars l d = Some ks /\ forallb job_sound ks = true.
  Proof.
    induction l as [|n l IH]; intros S; [exists []; split; reflexivity|]. cbn [forallb] in S. apply andb_prop in S. destruct S as [Sn Sl].
    destruct (IH Sl) as (ks & E & J). destruct (prepare_job_total n d Sn) as [T1 T2]. cbn [prepare_all]. rewrite E.
    destruct (prepare_job ryu pt xxh vars n d) as [| |k]; [contradiction|exists ks; auto|]. exists (k :: ks). split; [reflexivity|].
    cbn. rewrite (T2 k eq_refl). exact J.
  Qed.

  Lemma merge_aliases_total name all es : forall al i data, forallb (fun a => sound_alias (as_alias (fst a))) al = true ->
    merge_aliases pt name show all es al i data <> None.
  Proof.
    induction al as [|[a ents] al IH]; intros i data H; [discriminate|]. cbn [forallb fst] in H. apply andb_prop in H. destruct H as [Ha Hl].
    unfold sound_alias in Ha. apply andb_prop in Ha. destruct Ha as [Ha Hq]. apply andb_prop in Ha. destruct Ha as [Hi Ho].
    cbn [merge_aliases]. cbv zeta.
    assert (T : forall has, merge_alias pt a ents has data <> None).
    { intros has. unfold merge_alias. destruct ents as [l|]; [|discriminate].
      pose proof (map_opt_total (apply_rewrites pt (a_out (as_alias a))) l (rewrites_total _ Ho)) as M.
      destruct (map_opt _ l); [|contradiction]. destruct (is_nil (as_index a)); [discriminate|].
      destruct (place_paths _ _ _ _ _ _ _); discriminate. }
    match goal with |- context [merge_alias pt a ents ?h data] => specialize (T h); destruct (merge_alias pt a ents h data) as [[d' m]|]; [|contradiction] end.
    specialize (IH (S i) d' Hl). destruct (merge_aliases _ _ _ _ _ _ _ _) as [[d errs]|]; [discriminate|contradiction].
  Qed.

  Lemma process_job_total k o c : job_sound k = true -> process_job pt show k o c <> None.
  Proof.
    destruct o as [pre e|pre r]; [discriminate|]. unfold process_job. destruct k as [f [p|]|f p j|b vs sts]; cbn [job_sound]; intros S.
    - unfold sound_fetch in S. apply andb_prop in S. destruct S as [S _]. apply andb_prop in S. destruct S as [_ So].
      pose proof (rewrites_total _ So (r_data r)) as T. destruct (apply_rewrites pt (f_out f) (r_data r)); [|contradiction].
      destruct (visit_mut _ _ _ _ _ _ _); discriminate.
    - unfold sound_fetch in S. apply andb_prop in S. destruct S as [S _]. apply andb_prop in S. destruct S as [_ So].
      pose proof (rewrites_total _ So (r_data r)) as T. destruct (apply_rewrites pt (f_out f) (r_data r)); [discriminate|contradiction].
    - unfold sound_fetch in S. apply andb_prop in S. destruct S as [S _]. apply andb_prop in S. destruct S as [_ So].
      unfold process_flatten. destruct (take_entities_by_key "_entities" (r_data r)) as [l|]; [|discriminate].
      pose proof (map_opt_total (apply_rewrites pt (f_out f)) l (rewrites_total _ So)) as M.
      destruct (map_opt _ l); [|contradiction]. cbv zeta. destruct (visit_mut _ _ _ _ _ _ _) as [d' [n m]]; discriminate.
    - unfold process_batch. cbv zeta.
      assert (H : forallb (fun a : astate * option (list value) => sound_alias (as_alias (fst a))) (combine sts (collect_entities sts (r_data r))) = true).
      { generalize (collect_entities sts (r_data r)) as l. revert S. clear. induction sts as [|s sts IH]; intros S [|x l]; try reflexivity.
        cbn [forallb combine fst] in *. apply andb_prop in S. destruct S as [S1 S2]. rewrite S1. apply IH. exact S2. }
      pose proof (merge_aliases_total (b_service b) sts (match r_errors r with Some es => es | None => [] end) _ 0 (c_data c) H) as T.
      destruct (merge_aliases _ _ _ _ _ _ _ _) as [[d errs]|]; [discriminate|contradiction].
  Qed.
  Lemma process_all_total answer ks : forallb job_sound ks = true -> forall c, exists c', process_all pt show answer ks c = Some c'.
  Proof.
    induction ks as [|k ks IH]; intros S c; [exists c; reflexivity|]. cbn [forallb] in S. apply andb_prop in S. destruct S as [S1 S2].
    cbn [process_all]. pose proof (process_job_total k (answer k) c S1) as T. destruct (process_job pt show k (answer k) c); [apply IH, S2|contradiction].
  Qed.

  (** a run exists, whatever the answers are; in a parallel node, for every order of arrival *)
  Lemma run_exists answer n : sound n = true -> forall c, exists tr c', run ryu pt xxh show vars answer n c tr c'.
  Proof.
    induction n as [f|b|p n IH|l IH|l IH|v i e IHi IHe|] using node_ind'; intros S c.
    - exists [Sent (KFetch f None); Done (KFetch f None)].
      pose proof (process_job_total (KFetch f None) (answer (KFetch f None)) c S) as T.
      destruct (process_job pt show (KFetch f None) (answer (KFetch f None)) c) as [c'|] eqn:E; [|contradiction].
      exists c'. apply run_leaf; [exact I|reflexivity|exact E].
    - destruct (prepare_leaf_total (NBatch b) (c_data c) S) as [T1 T2].
      destruct (prepare_leaf ryu pt xxh (NBatch b) (c_data c)) as [| |k] eqn:E; [contradiction| |].
      + exists [], c. apply run_idle; [exact I|exact E].
      + pose proof (process_job_total k (answer k) c (T2 k eq_refl)) as T.
        destruct (process_job pt show k (answer k) c) as [c'|] eqn:E'; [|contradiction].
        exists [Sent k; Done k], c'. apply run_leaf; [exact I|exact E|exact E'].
    - destruct (prepare_leaf_total (NFlatten p n) (c_data c) S) as [T1 T2].
      destruct (prepare_leaf ryu pt xxh (NFlatten p n) (c_data c)) as [| |k] eqn:E; [contradiction| |].
      + exists [], c. apply run_idle; [exact I|exact E].
      + pose proof (process_job_total k (answer k) c (T2 k eq_refl)) as T.
        destruct (process_job pt show k (answer k) c) as [c'|] eqn:E'; [|contradiction].
        exists [Sent k; Done k], c'. apply run_leaf; [exact I|exact E|exact E'].
    - cbn [sound] in S. assert (H : exists tr c', run_list ryu pt xxh show vars answer l c tr c').
      { revert c. induction IH as [|n l Hn _ IHl]; intros c; [exists [], c; constructor|].
        cbn [forallb] in S. apply andb_prop in S. destruct S as [S1 S2]. destruct (Hn S1 c) as (tr1 & c1 & R1).
        destruct (IHl S2 c1) as (tr2 & c2 & R2). exists (tr1 ++ tr2), c2. econstructor; eassumption. }
      destruct H as (tr & c' & R). exists tr, c'. constructor. exact R.
    - cbn [sound] in S. destruct (prepare_all_total l (c_data c) S) as (ks & E & J).
      destruct (process_all_total answer ks J c) as [c' E']. exists (map Sent ks ++ map Done ks), c'.
      eapply run_parallel; [exact E|apply Permutation_refl|exact E'].
    - cbn [sound] in S. apply andb_prop in S. destruct S as [Si Se].
      destruct (condition_branch vars v i e) as [n'|] eqn:B; [|exists [], c; apply run_no_branch; exact B].
      assert (H : exists tr c', run ryu pt xxh show vars answer n' c tr c').
      { pose proof B as B0. unfold condition_branch in B. destruct vars as [vs|]; [|discriminate B]. destruct (get v vs) as [x|]; [|discriminate B].
        destruct x as [|fb|iz|u|[|]|s|r|l|o]; subst; try (apply IHe; exact Se); apply IHi; exact Si. }
      destruct H as (tr & c' & R). exists tr, c'. eapply run_branch; eassumption.
    - exists [], c. apply run_idle; [exact I|reflexivity].
  Qed.
  Lemma any_arrival answer l c : forallb sound l = true -> exists ks, prepare_all ryu pt xxh vars l (c_data c) = Some ks /\
    forall ks', Permutation ks ks' -> exists c', run ryu pt xxh show vars answer (NParallel l) c (map Sent ks ++ map Done ks') c'.
  Proof.
    intros S. destruct (prepare_all_total l (c_data c) S) as (ks & E & J). exists ks. split; [exact E|]. intros ks' P.
    assert (J' : forallb job_sound ks' = true).
    { rewrite forallb_forall in *. intros k Ik. apply J. eapply Permutation_in; [apply Permutation_sym; exact P|exact Ik]. }
    destruct (process_all_total answer ks' J' c) as [c' E']. exists c'. eapply run_parallel; eassumption.
  Qed.
End R.
