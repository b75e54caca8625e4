(** C42: failures in a plan stay isolated, whatever order the answers arrive in. *)
From Coq Require Import String List NArith ZArith Bool Permutation Sorted.
From Verif Require Import StrOrd JsonModel MergeModel MergeSpec Ast TraverseModel TraverseSpec TraverseProofs RewriteModel
  RequiresModel EntityModel EntitySpec ExecModel ExecSpec ExecProofs ExecRun ExecErrors.
Import ListNotations.
Local Open Scope nat_scope.
Local Open Scope list_scope.

(** The data of a finished plan is what the successful answers made of it: leaving the failed
    requests out gives the same data. *)
Theorem C42_failures_add_no_data :
  forall ryu pt xxh show vars answer n c tr c', run ryu pt xxh show vars answer n c tr c' ->
  exists c'', process_all pt show answer (filter (fun k => succeeded (answer k)) (finished tr)) c = Some c'' /\
              c_data c'' = c_data c'.
Proof. exact run_successes. Qed.
Print Assumptions C42_failures_add_no_data.

(** Every request sent is answered; no error is lost: a failed request leaves its failure behind, and
    every error of an answer is reported with its message and details. *)
Theorem C42_every_error_is_reported :
  forall ryu pt xxh show vars answer n c tr c', run ryu pt xxh show vars answer n c tr c' ->
  Permutation (sent tr) (finished tr) /\
  exists es, c_errors c' = c_errors c ++ es /\ forall k, In k (sent tr) -> reported k (answer k) es.
Proof. exact run_all_reported. Qed.
Print Assumptions C42_every_error_is_reported.

(** What the members of a parallel node send does not depend on how any of them is answered. *)
Theorem C42_siblings_are_independent :
  forall ryu pt xxh show vars answer1 answer2 l c tr1 c1 tr2 c2,
  run ryu pt xxh show vars answer1 (NParallel l) c tr1 c1 -> run ryu pt xxh show vars answer2 (NParallel l) c tr2 c2 ->
  sent tr1 = sent tr2.
Proof. exact wave_independent. Qed.
Print Assumptions C42_siblings_are_independent.

(** In a plan whose parallel nodes hold fetches only, every fetch that the variables select gets
    its turn whatever happens to the others, and nothing else is sent. *)
Theorem C42_every_fetch_gets_its_turn :
  forall ryu pt xxh show vars answer n c tr c', run ryu pt xxh show vars answer n c tr c' -> shaped n = true ->
  (forall m, In m (chosen vars n) -> exists d, asked ryu pt xxh m d tr) /\
  (forall k, In k (sent tr) -> exists m, In m (chosen vars n) /\ request_of m k).
Proof. exact (fun ryu pt xxh show vars answer => proj1 (every_fetch ryu pt xxh show vars answer)). Qed.
Print Assumptions C42_every_fetch_gets_its_turn.

(** The steps of a sequence run one after the other: when a step starts, everything sent by the
    earlier steps has been answered, and it starts from the data they produced. *)
Theorem C42_steps_in_order :
  forall ryu pt xxh show vars answer l1 n l2 c tr c',
  run ryu pt xxh show vars answer (NSequence (l1 ++ n :: l2)) c tr c' ->
  exists tr1 c1 tr2 c2 tr3,
    run ryu pt xxh show vars answer (NSequence l1) c tr1 c1 /\ run ryu pt xxh show vars answer n c1 tr2 c2 /\
    run ryu pt xxh show vars answer (NSequence l2) c2 tr3 c' /\
    tr = tr1 ++ tr2 ++ tr3 /\ Permutation (sent tr1) (finished tr1).
Proof. exact sequence_splits. Qed.
Print Assumptions C42_steps_in_order.

(** Nothing gets stuck: every plan whose renames end with a key runs to its end, whatever the
    answers are. *)
Theorem C42_a_plan_always_finishes :
  forall ryu pt xxh show vars answer n, sound n = true ->
  forall c, exists tr c', run ryu pt xxh show vars answer n c tr c'.
Proof. exact run_exists. Qed.
Print Assumptions C42_a_plan_always_finishes.

Theorem C42_any_arrival_order_is_possible :
  forall ryu pt xxh show vars answer l c, forallb sound l = true ->
  exists ks, prepare_all ryu pt xxh vars l (c_data c) = Some ks /\
  forall ks', Permutation ks ks' ->
  exists c', run ryu pt xxh show vars answer (NParallel l) c (map Sent ks ++ map Done ks') c'.
Proof. exact any_arrival. Qed.
Print Assumptions C42_any_arrival_order_is_possible.

(** The order in which the answers of a parallel node arrive makes no difference to the data, and
    only orders the errors, when the answers are compatible. *)
Theorem C42_arrival_order_is_irrelevant :
  forall pt show answer pos d, wf d -> listed pt d pos ->
  forall ks, (forall k, In k ks -> exists us, changes pt pos k (answer k) = Some us) ->
  compatible pt pos d answer ks ->
  forall es ks', Permutation ks ks' ->
  exists c c', process_all pt show answer ks (mkctx d es) = Some c /\
    process_all pt show answer ks' (mkctx d es) = Some c' /\
    c_data c = merge_all d (patches pt pos d answer ks) /\
    c_data c' = c_data c /\ Permutation (c_errors c) (c_errors c').
Proof. exact any_order. Qed.
Print Assumptions C42_arrival_order_is_irrelevant.

(** A sequence inside a parallel node is skipped without a word: [prepare_job_future] answers
    [None] for it (plan.rs:1068-1069).  The planner does not build such plans (see C32). *)
Theorem C42_sequence_in_parallel_is_dropped_refuted :
  exists n m, In m (chosen (Some []) n) /\ sound n = true /\
  forall ryu pt xxh show answer c tr c', run ryu pt xxh show (Some []) answer n c tr c' -> tr = [] /\ c' = c.
Proof.
  set (f := mkfetch 0 "a" None [] []).
  exists (NParallel [NSequence [NFetch f]]), (NFetch f). split; [left; reflexivity|]. split; [reflexivity|].
  intros ryu pt xxh show answer c tr c' R.
  inversion R as [? ? ks ks' ? P Pm E| | | |? ? ? ? F|? ? F]; subst; [|destruct F|destruct F].
  cbn in P. injection P as <-. apply Permutation_nil in Pm. subst ks'. cbn in E. injection E as <-. auto.
Qed.
Print Assumptions C42_sequence_in_parallel_is_dropped_refuted.

(** ** Examples *)
Definition ex_types : ptypes := fun _ => None.
Definition ex_show : list fseg -> string := fun _ => "p"%string.
Definition f1 := mkfetch 1 "a" None [] [].
Definition f2 := mkfetch 2 "b" None [] [].
Definition f3 := mkfetch 3 "c" None [] [].
Definition boom := mkerr "down" [] None None None None [].
Definition ex_answer (k : job_kind) : outcome :=
  match k with
  | KFetch f _ => match f_id f with
                  | 1 => OOk [] (mkresp (VObj [("x"%string, VI64 1%Z)]) None)
                  | 2 => OErr [] boom
                  | _ => OOk [] (mkresp (VObj [("y"%string, VI64 2%Z)]) None)
                  end
  | _ => OErr [] boom
  end.
(** One of three fails: the other two are merged, and the failure is reported. *)
Example C42_example_run : forall c',
  run (fun _ => ""%string) ex_types (fun _ => 0%N) ex_show None ex_answer
      (NParallel [NFetch f1; NFetch f2; NFetch f3]) (mkctx VNull [])
      [Sent (KFetch f1 None); Sent (KFetch f2 None); Sent (KFetch f3 None);
       Done (KFetch f2 None); Done (KFetch f3 None); Done (KFetch f1 None)] c' <->
  c' = mkctx (VObj [("x"%string, VI64 1%Z); ("y"%string, VI64 2%Z)]) [boom].
Proof.
  intros c'. split.
  - intros R. remember (mkctx VNull []) as c0 eqn:Ec. remember (NParallel _) as n0 eqn:En.
    match type of R with run _ _ _ _ _ _ _ _ ?t _ => remember t as tr eqn:Et end.
    destruct R as [l c ks ks' c' P Pm E| | | |? ? ? ? F|? ? F]; subst; try discriminate En; try discriminate Et.
    injection En as ->. cbn in P. injection P as <-. cbn in Et. destruct ks' as [|k1 [|k2 [|k3 ks']]]; try discriminate Et.
    injection Et as -> -> -> Er. destruct ks'; [|discriminate Er]. cbn in E. injection E as <-. reflexivity.
  - intros ->. apply (run_parallel _ _ _ _ _ _ _ _ [KFetch f1 None; KFetch f2 None; KFetch f3 None]
      [KFetch f2 None; KFetch f3 None; KFetch f1 None]); try reflexivity.
    apply (Permutation_cons_append [KFetch f2 None; KFetch f3 None] (KFetch f1 None)).
Qed.
Example C42_example_sound : sound (NSequence [NParallel [NFetch f1; NFetch f2]; NFlatten [FField "x"] (NFetch f3)]) = true
  /\ shaped (NSequence [NParallel [NFetch f1; NFetch f2]; NFlatten [FField "x"] (NFetch f3)]) = true.
Proof. split; reflexivity. Qed.

(** Two re-entry fetches for the elements of a list; both orders give the same list. *)
Definition ex_data := VObj [("l"%string, VArr [VObj []; VObj []])].
Definition ex_p : list fseg := [FField "l"; FList].
Definition ex_pos (p : list fseg) := map fst (targets ex_types p ex_data).
Definition ex_jobs := [KFetch f1 (Some ex_p); KFetch f3 (Some ex_p)].
Example C42_example_order :
  process_all ex_types ex_show ex_answer ex_jobs (mkctx ex_data [])
  = process_all ex_types ex_show ex_answer (rev ex_jobs) (mkctx ex_data []) /\
  process_all ex_types ex_show ex_answer ex_jobs (mkctx ex_data [])
  = Some (mkctx (VObj [("l"%string, VArr [VObj [("x"%string, VI64 1%Z); ("y"%string, VI64 2%Z)];
                                   VObj [("x"%string, VI64 1%Z); ("y"%string, VI64 2%Z)]])]) []).
Proof. split; reflexivity. Qed.
Lemma ex_pos_listed : listed ex_types ex_data ex_pos.
Proof.
  intros p. split; [apply targets_sorted|]. intros q. unfold ex_pos. split.
  - intros H. apply in_map_iff in H. destruct H as ([q' x] & <- & H). apply targets_selects in H. exists x. exact H.
  - intros [x H]. apply targets_selects in H. apply (in_map fst) in H. exact H.
Qed.
Definition two (a b : list (string * value)) := VObj [("l"%string, VArr [VObj a; VObj b])].
Lemma ex_two_merge a b r : In r (patches ex_types ex_pos ex_data ex_answer ex_jobs) ->
  exists a' b', deep_merge (two a b) r = two a' b'.
Proof.
  intros H. cbn in H. destruct H as [<-|[<-|[<-|[<-|[]]]]]; cbn; eexists; eexists; reflexivity.
Qed.
Lemma ex_two_merges rs : incl rs (patches ex_types ex_pos ex_data ex_answer ex_jobs) ->
  forall a b, exists a' b', merge_all (two a b) rs = two a' b'.
Proof.
  induction rs as [|r rs IH]; intros Hr a b; [exists a, b; reflexivity|].
  destruct (ex_two_merge a b r (Hr r (or_introl eq_refl))) as (a1 & b1 & E).
  unfold merge_all. cbn [fold_left]. rewrite E. apply IH. intros x Hx. apply Hr. right. exact Hx.
Qed.
Lemma ex_two_positions a b a' b' : same_positions ex_types ex_p (two a b) (two a' b').
Proof.
  intros q. split; intros [x H]; apply targets_selects in H; cbn in H.
  - destruct H as [H|[H|[]]]; injection H as <- <-; eexists; apply targets_selects; cbn; [left|right; left]; reflexivity.
  - destruct H as [H|[H|[]]]; injection H as <- <-; eexists; apply targets_selects; cbn; [left|right; left]; reflexivity.
Qed.
(** the hypotheses of [C42_arrival_order_is_irrelevant] hold here *)
Example C42_example_compatible : wf ex_data /\ listed ex_types ex_data ex_pos /\
  (forall k, In k ex_jobs -> exists us, changes ex_types ex_pos k (ex_answer k) = Some us /\ us <> []) /\
  compatible ex_types ex_pos ex_data ex_answer ex_jobs.
Proof.
  split; [|split; [exact ex_pos_listed|split]].
  - apply wf_obj; [apply Sorted.SSorted_cons; constructor|]. constructor; [|constructor]. cbn. constructor.
    constructor; [|constructor; [|constructor]]; apply wf_obj; constructor.
  - intros k [<-|[<-|[]]]; eexists; (split; [reflexivity|discriminate]).
  - unfold compatible. split; [|split; [|split]].
    + cbn. repeat (constructor; cbn).
    + intros a H. cbn in H. destruct H as [<-|[<-|[<-|[<-|[]]]]]; apply agree_obj; intros k x y G1 G2; cbn in G1, G2;
        destruct (String.eqb k "l"); try discriminate G1; injection G1 as <-; injection G2 as <-; apply agree_arr;
        repeat constructor; cbn; intros; discriminate.
    + intros a b Ha Hb. cbn in Ha, Hb.
      destruct Ha as [<-|[<-|[<-|[<-|[]]]]]; destruct Hb as [<-|[<-|[<-|[<-|[]]]]]; apply agree_obj; intros k x y G1 G2; cbn in G1, G2;
        destruct (String.eqb k "l"); try discriminate G1; injection G1 as <-; injection G2 as <-; apply agree_arr;
        constructor; try (constructor; [|constructor]); try apply agree_null_l; try apply agree_null_r;
        apply agree_obj; intros k' x' y' G1' G2'; cbn in G1', G2';
        destruct (String.eqb k' "x") eqn:Ex; destruct (String.eqb k' "y") eqn:Ey; try discriminate;
        injection G1' as <-; injection G2' as <-; try (apply agree_scalar; exact I);
        apply String.eqb_eq in Ex; apply String.eqb_eq in Ey; subst; discriminate.
    + intros rs k p Hr Hk Hp. destruct (ex_two_merges rs Hr [] []) as (a' & b' & E).
      change ex_data with (two [] []). rewrite E.
      destruct Hk as [<-|[<-|[]]]; destruct Hp as [<-|[]]; apply ex_two_positions.
Qed.
