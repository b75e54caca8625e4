(** The theorems of C32 assembled, with their examples. *)
From Coq Require Import String List NArith ZArith Bool Permutation Sorted Lia.
From Verif Require Import StrOrd StrUtil JsonModel JsonWriterModel MergeModel MergeSpec MergeProofs Ast AstHashModel TraverseModel TraverseSpec TraverseProofs RewriteModel
  ProjModel ProjSpec RequiresModel RequiresProofs EntityModel EntitySpec ExecModel ExecSpec ExecProofs ExecRun
  QplanModel QplanSpec QplanGroup QplanParallel QplanRun QplanWave.
Import ListNotations.
Local Open Scope nat_scope.
Local Open Scope list_scope.

Lemma sequences_keep ryu pt xxh show vars answer l :
  forallb proper (flat_map flatten_sequence l) = true ->
  forall c tr c', run ryu pt xxh show vars answer (NSequence (optimize_plan_sequence l)) c tr c' <->
                  run ryu pt xxh show vars answer (NSequence l) c tr c'.
Proof. intros H c tr c'. rewrite !run_seq. apply ops_same. exact H. Qed.
Lemma simple_keep ryu pt xxh show vars answer HF HX info alike n : simple n = true ->
  exists n', optimize_node HF HX info alike n = Some n' /\ simple n' = true /\
  forall c tr c', run ryu pt xxh show vars answer n' c tr c' <-> run ryu pt xxh show vars answer n c tr c'.
Proof.
  intros H. destruct (simple_opt ryu pt xxh show vars answer HF HX info alike n H) as (n' & E & S & R).
  exists n'. split; [exact E|]. split; [exact S|]. intros c tr c'. rewrite <- !run_one. apply R.
Qed.
Lemma batches_replace HF HX info alike nodes : Forall own_vars (candidates info nodes) ->
  exists nodes' bs, optimize_parallel HF HX info alike nodes = Some nodes' /\ regrouped nodes nodes' bs.
Proof.
  intros H. destruct (optimize_parallel_ok HF HX info alike nodes H) as (rs & bs & _ & E & _ & _ & _ & R). eauto.
Qed.
Lemma batches_keep_work HF HX info alike nodes : Forall own_vars (candidates info nodes) -> discerning HF HX alike (candidates info nodes) ->
  exists nodes' bs, optimize_parallel HF HX info alike nodes = Some nodes' /\ regrouped nodes nodes' bs /\
                    Forall (fun gb => same_work (fst gb) (snd gb)) bs.
Proof.
  intros H D. destruct (optimize_parallel_ok HF HX info alike nodes H) as (rs & bs & _ & E & _ & O & _ & R).
  eexists _, bs. split; [exact E|]. split; [exact R|]. eapply Forall_impl; [|exact O]. intros gb [_ W]. apply W, D.
Qed.
Lemma new_waves HF HX info alike waves : waves_ok info waves ->
  Forall2 (fun w w' => optimize_parallel HF HX info alike w = Some w') waves (map (new_wave HF HX info alike) waves).
Proof.
  induction 1 as [|w ws [Sw Ow] _ IH]; constructor; [|exact IH].
  destruct (optimize_parallel_ok HF HX info alike w Ow) as (rs & bs & _ & E & _). unfold new_wave. rewrite E. reflexivity.
Qed.
Lemma plan_runs_waves ryu pt xxh show vars answer HF HX info alike waves : waves_ok info waves ->
  exists n waves', plan_of_waves HF HX info alike waves = Some n /\ shaped n = true /\
    Forall2 (fun w w' => optimize_parallel HF HX info alike w = Some w') waves waves' /\
    forall c tr c', run ryu pt xxh show vars answer n c tr c' <->
                    run ryu pt xxh show vars answer (NSequence (map NParallel waves')) c tr c'.
Proof.
  intros W. destruct (plan_runs ryu pt xxh show vars answer HF HX info alike waves W) as (n & E & Sh & R).
  exists n, (map (new_wave HF HX info alike) waves). split; [exact E|]. split; [exact Sh|]. split; [apply new_waves, W|].
  intros c tr c'. rewrite run_seq, map_map. apply R.
Qed.
Lemma batched_wave ryu pt xxh show vars answer HF HX info alike resolve nodes nodes' c :
  Forall own_vars (candidates info nodes) -> fit ryu pt xxh vars answer HF HX info alike resolve nodes (c_data c) ->
  optimize_parallel HF HX info alike nodes = Some nodes' ->
  forall tr c1 tr' c2, run ryu pt xxh show vars answer (NParallel nodes) c tr c1 ->
  run ryu pt xxh show vars answer (NParallel nodes') c tr' c2 -> c_data c1 = c_data c2.
Proof.
  intros Ow F E tr c1 tr' c2 R1 R2. eapply wave_data; [exact Ow|exact F|exact R1|]. unfold new_wave. rewrite E. exact R2.
Qed.
Lemma plan_same_data ryu pt xxh show vars answer HF HX info alike resolve waves c : waves_ok info waves ->
  all_fit ryu pt xxh show vars answer HF HX info alike resolve waves (c_data c) ->
  exists n, plan_of_waves HF HX info alike waves = Some n /\
  forall tr c1 tr' c2, run ryu pt xxh show vars answer (NSequence (map NParallel waves)) c tr c1 ->
  run ryu pt xxh show vars answer n c tr' c2 -> c_data c1 = c_data c2.
Proof.
  intros W F. destruct (plan_runs ryu pt xxh show vars answer HF HX info alike waves W) as (n & E & Sh & R).
  exists n. split; [exact E|]. intros tr c1 tr' c2 R1 R2. apply R in R2. apply run_seq in R1.
  eapply plan_data; [reflexivity| |exact F|exact R1|exact R2]. eapply Forall_impl; [|exact W]. intros w [_ O]. exact O.
Qed.

(** ** Confused arguments *)
Definition ex_id : list sel := [SField "id" None None None None false []].
Definition ex_f (v : gvalue) : list sel := [SField "f" None (Some [("x"%string, v)]) None None false []].
Definition ex_f1 := mkfetch 1 "s" (Some ex_id) [] [].
Definition ex_f2 := mkfetch 2 "s" (Some ex_id) [] [].
Definition ex_nodes := [NFlatten [FField "a"] (NFetch ex_f1); NFlatten [FField "b"] (NFetch ex_f2)].
Definition bad_info (i : nat) : option (list sel * list vardef * list string) :=
  match i with 1 => Some (ex_f GNull, [], []) | _ => Some (ex_f (GStr "null"), [], []) end.
Lemma bad_shape HF HX a b : k_requires a = ex_id -> k_requires b = ex_id -> k_in a = [] -> k_in b = [] -> k_out a = [] -> k_out b = [] ->
  k_selection a = ex_f GNull -> k_selection b = ex_f (GStr "null") -> eq_shape HF HX a b = true.
Proof.
  intros E1 E2 E3 E4 E5 E6 E7 E8. unfold eq_shape. rewrite E1, E2, E3, E4, E5, E6, E7, E8. rewrite N.eqb_refl.
  change (shape_hash HF HX (ex_f (GStr "null"))) with (shape_hash HF HX (ex_f GNull)). rewrite N.eqb_refl. reflexivity.
Qed.
Definition bad_c1 := mkcand 0 1 "s" [FField "a"] [] ex_id (ex_f GNull) [] [] [].
Definition bad_c2 := mkcand 1 2 "s" [FField "b"] [] ex_id (ex_f (GStr "null")) [] [] [].
Definition bad_built := mkbuilt (mkbatch 1 "s" [mkalias "_e0" "__batch_reps_0" [[FField "a"]; [FField "b"]] ex_id [] []])
  [("_e0", "__batch_reps_0", ex_f GNull)]%string ["__batch_reps_0"%string] [] [].
Lemma arguments_confused :
  exists info nodes c1 c2, forallb step_node nodes = true /\ Forall own_vars (candidates info nodes) /\
  candidates info nodes = [c1; c2] /\ k_selection c1 <> k_selection c2 /\
  forall HF HX alike, exists b, optimize_parallel HF HX info alike nodes = Some [NBatch (bt_node b)] /\
    replacements_of HF HX alike (by_subgraph (candidates info nodes)) = Some [(0, b, [0; 1])] /\
    map snd (bt_items b) = [k_selection c1] /\ ~ In (task_of c2) (batch_tasks b).
Proof.
  exists bad_info, ex_nodes, bad_c1, bad_c2. split; [reflexivity|].
  assert (Ec : candidates bad_info ex_nodes = [bad_c1; bad_c2]) by reflexivity. rewrite Ec.
  split; [repeat constructor; cbn; intros []|]. split; [reflexivity|]. split; [cbn; discriminate|].
  intros HF HX alike. exists bad_built.
  assert (Er : replacements_of HF HX alike (by_subgraph [bad_c1; bad_c2]) = Some [(0, bad_built, [0; 1])]).
  { unfold replacements_of. replace (groups_of (by_subgraph [bad_c1; bad_c2])) with [([bad_c1; bad_c2], @nil vardef)] by reflexivity.
    cbn [map]. unfold replacement. cbn [fst snd].
    replace (by_shape HF HX [bad_c1; bad_c2]) with [[bad_c1; bad_c2]]; [reflexivity|].
    unfold by_shape. cbn [fold_left put_shape]. rewrite (bad_shape HF HX bad_c1 bad_c2) by reflexivity. reflexivity. }
  split; [unfold optimize_parallel; rewrite Ec, Er; reflexivity|]. split; [exact Er|]. split; [reflexivity|].
  cbn. intros [H|[H|[]]]; discriminate H.
Qed.

(** ** A wave that fits *)
Definition ex_n : list sel := [SField "n" None None None None false []].
Definition ex_info (i : nat) : option (list sel * list vardef * list string) := Some (ex_n, [], []).
Definition ex_ryu : N -> string := fun _ => ""%string.
Definition ex_pt : ptypes := fun _ => None.
Definition ex_xxh (l : list N) : N := fold_left (fun a b => (a * 257 + b + 1)%N) l 0%N.
Definition ex_e (i : Z) : value := VObj [("id"%string, VI64 i)].
Definition ex_d : value := VObj [("a"%string, ex_e 1); ("b"%string, ex_e 2)].
Definition ex_resolve (_ : string) (_ : list sel) (r : value) : value :=
  VObj [("n"%string, match r with VObj [(_, v)] => v | _ => VNull end)].
Definition ex_ans (k : string) (l : list Z) : outcome :=
  OOk [] (mkresp (VObj [(k, VArr (map (fun i => VObj [("n"%string, VI64 i)]) l))]) None).
Definition ex_answer (k : job_kind) : outcome :=
  match k with
  | KFlatten f _ _ => ex_ans "_entities" [match f_id f with 1 => 1%Z | _ => 2%Z end]
  | KBatch _ _ _ => ex_ans "_e0" [1%Z; 2%Z]
  | _ => OErr [] (mkerr "down" [] None None None None [])
  end.
Notation ex_opt := (optimize_parallel (fun _ => 0%N) (fun _ => 0%N) ex_info (fun _ _ => true)).
Lemma ex_batch_ok :
  Forall own_vars (candidates ex_info ex_nodes) /\ discerning (fun _ => 0%N) (fun _ => 0%N) (fun _ _ => true) (candidates ex_info ex_nodes) /\
  ex_opt ex_nodes
  = Some [NBatch (mkbatch 1 "s" [mkalias "_e0" "__batch_reps_0" [[FField "a"]; [FField "b"]] ex_id [] []])].
Proof.
  split; [repeat constructor; cbn; intros []|]. split; [|vm_compute; reflexivity].
  apply bare_discerning. intros c [<-|[<-|[]]]; split; reflexivity.
Qed.
Definition ex_pos (p : list fseg) := map fst (targets ex_pt p ex_d).
Lemma ex_pos_listed : listed ex_pt ex_d ex_pos.
Proof.
  intros p. split; [apply targets_sorted|]. intros q. unfold ex_pos. split.
  - intros H. apply in_map_iff in H. destruct H as ([q' x] & <- & H). apply targets_selects in H. exists x. exact H.
  - intros [x H]. apply targets_selects in H. apply (in_map fst) in H. exact H.
Qed.
Lemma ex_numbered sels rws index paths reps reps' :
  numbered ex_pt ex_xxh ex_d sels rws index paths reps -> numbered ex_pt ex_xxh ex_d sels rws index paths reps' -> reps = reps'.
Proof.
  intros [O U] [O' U'].
  assert (K : forall i, i < length reps -> nth_error reps i = nth_error reps' i).
  { intros i Hi. destruct (U i Hi) as (p & e & Ip & Ie & E). pose proof (O p e Ip Ie) as A. pose proof (O' p e Ip Ie) as B.
    rewrite E in A, B. cbn [pick] in A, B. congruence. }
  assert (K' : forall i, i < length reps' -> nth_error reps i = nth_error reps' i).
  { intros i Hi. destruct (U' i Hi) as (p & e & Ip & Ie & E). pose proof (O p e Ip Ie) as A. pose proof (O' p e Ip Ie) as B.
    rewrite E in A, B. cbn [pick] in A, B. congruence. }
  clear - K K'. revert reps' K K'. induction reps as [|r reps IH]; intros [|r' reps'] K K'; try reflexivity.
  - specialize (K' 0 (Nat.lt_0_succ _)). discriminate K'.
  - specialize (K 0 (Nat.lt_0_succ _)). discriminate K.
  - pose proof (K 0 (Nat.lt_0_succ _)) as E. cbn in E. injection E as ->. f_equal. apply IH; intros i Hi.
    + apply (K (S i)). cbn. lia.
    + apply (K' (S i)). cbn. lia.
Qed.

Definition two (a b : list (string * value)) := VObj [("a"%string, VObj a); ("b"%string, VObj b)].
Definition ex_ks : list job_kind := match prepare_all ex_ryu ex_pt ex_xxh None ex_nodes ex_d with Some ks => ks | None => [] end.
Definition ex_R := patches ex_pt ex_pos ex_d ex_answer ex_ks.
Lemma ex_R_is : ex_R = [VObj [("a"%string, VObj [("n"%string, VI64 1%Z)])]; VObj [("b"%string, VObj [("n"%string, VI64 2%Z)])]].
Proof. vm_compute. reflexivity. Qed.
Lemma ex_fit : fit ex_ryu ex_pt ex_xxh None ex_answer (fun _ => 0%N) (fun _ => 0%N) ex_info (fun _ _ => true) ex_resolve ex_nodes ex_d.
Proof.
  constructor.
  - apply wf_obj; [repeat constructor|]. repeat constructor.
  - reflexivity.
  - reflexivity.
  - intros c [<-|[<-|[]]]; reflexivity.
  - assert (V : forall c e, In c (candidates ex_info ex_nodes) -> In e (visit ex_pt (k_path c) ex_d) -> e = ex_e 1 \/ e = ex_e 2).
    { intros c e [<-|[<-|[]]]; intros [<-|[]]; [left|right]; reflexivity. }
    intros c D Ic HD.
    assert (Er : k_requires c = ex_id /\ k_in c = []) by (destruct Ic as [<-|[<-|[]]]; split; reflexivity). destruct Er as [-> ->].
    assert (HD' : forall e, In e D -> e = ex_e 1 \/ e = ex_e 2).
    { intros e I. destruct (HD e I) as (c' & Ic' & _ & _ & Ie). exact (V c' e Ic' Ie). }
    split.
    + intros e1 e2 I1 I2 _ _. destruct (HD' e1 I1) as [->| ->], (HD' e2 I2) as [->| ->]; intros H; try reflexivity; vm_compute in H; discriminate H.
    + intros e e' I E. cbn [apply_rewrites] in E. injection E as <-. destruct (HD' e I) as [->| ->]; reflexivity.
  - apply ex_batch_ok.
  - intros c [<-|[<-|[]]] j reps E Nu _; vm_compute in E; injection E as <-.
    + rewrite (ex_numbered _ _ _ _ reps [ex_e 1] Nu); [eexists; eexists; split; reflexivity|]. split.
      * intros p e [<-|[]] [<-|[]]. reflexivity.
      * intros [|i] Hi; [|cbn in Hi; lia]. exists [FField "a"], (ex_e 1). repeat split; left; reflexivity.
    + rewrite (ex_numbered _ _ _ _ reps [ex_e 2] Nu); [eexists; eexists; split; reflexivity|]. split.
      * intros p e [<-|[]] [<-|[]]. reflexivity.
      * intros [|i] Hi; [|cbn in Hi; lia]. exists [FField "b"], (ex_e 2). repeat split; left; reflexivity.
  - intros rs i b is E I. vm_compute in E. injection E as <-. destruct I as [I|[]]. injection I as <- <- <-.
    intros vs sts E. vm_compute in E. injection E as <- <-. eexists; eexists; split; [reflexivity|].
    intros st s reps a [<-|[]] [Is|[]] Nu _. apply (f_equal snd) in Is. cbn [snd] in Is. subst s a.
    rewrite (ex_numbered _ _ _ _ reps [ex_e 1; ex_e 2] Nu); [reflexivity|]. split.
    + intros p e [<-|[<-|[]]] [<-|[]]; reflexivity.
    + intros [|[|i]] Hi; [| |cbn in Hi; lia].
      * exists [FField "a"], (ex_e 1). repeat split; left; reflexivity.
      * exists [FField "b"], (ex_e 2). split; [right; left; reflexivity|split; [left; reflexivity|reflexivity]].
  - exists ex_pos. split; [exact ex_pos_listed|]. intros ks E.
    assert (K : patches ex_pt ex_pos ex_d ex_answer ks = ex_R) by (unfold ex_R, ex_ks; rewrite E; reflexivity).
    cbv zeta. rewrite K, ex_R_is. clear ks E K. split; [|split; [|split]].
    + repeat constructor.
    + intros a [<-|[<-|[]]]; apply agree_obj; intros k x y G1 G2; cbn in G1, G2.
      * destruct (String.eqb k "a"); [|discriminate G2]. injection G1 as <-. injection G2 as <-.
        apply agree_obj. intros k' x y G1 G2. cbn in G1, G2.
        destruct (String.eqb k' "id") eqn:Ea; [|discriminate G1]. apply String.eqb_eq in Ea. subst k'. discriminate G2.
      * destruct (String.eqb k "b") eqn:Eb; [|discriminate G2]. apply String.eqb_eq in Eb. subst k. cbn in G1. injection G1 as <-. injection G2 as <-.
        apply agree_obj. intros k' x y G1 G2. cbn in G1, G2.
        destruct (String.eqb k' "id") eqn:Ea; [|discriminate G1]. apply String.eqb_eq in Ea. subst k'. discriminate G2.
    + intros a b [<-|[<-|[]]] [<-|[<-|[]]]; apply agree_obj; intros k x y G1 G2; cbn in G1, G2;
        destruct (String.eqb k "a") eqn:Ea; destruct (String.eqb k "b") eqn:Eb; try discriminate;
        try (apply String.eqb_eq in Ea; apply String.eqb_eq in Eb; subst; discriminate);
        injection G1 as <-; injection G2 as <-; apply agree_obj; intros k' x y G1 G2; cbn in G1, G2;
        (destruct (String.eqb k' "n"); [|discriminate]); injection G1 as <-; injection G2 as <-; apply agree_scalar; exact I.
    + assert (M : forall rs, incl rs [VObj [("a"%string, VObj [("n"%string, VI64 1%Z)])]; VObj [("b"%string, VObj [("n"%string, VI64 2%Z)])]] ->
                  forall a b, exists a' b', merge_all (two a b) rs = two a' b').
      { induction rs as [|r rs IH]; intros Hr a b; [exists a, b; reflexivity|].
        assert (E : exists a1 b1, deep_merge (two a b) r = two a1 b1).
        { destruct (Hr r (or_introl eq_refl)) as [<-|[<-|[]]]; cbn; eexists; eexists; reflexivity. }
        destruct E as (a1 & b1 & E). unfold merge_all. cbn [fold_left]. rewrite E. apply IH. intros x Hx. apply Hr. right. exact Hx. }
      intros rs n p Hr Hn Hp. destruct (M rs Hr [("id"%string, VI64 1%Z)] [("id"%string, VI64 2%Z)]) as (a' & b' & E).
      change ex_d with (two [("id"%string, VI64 1%Z)] [("id"%string, VI64 2%Z)]). rewrite E.
      assert (Ep : p = [FField "a"] \/ p = [FField "b"]) by (destruct Hn as [<-|[<-|[]]]; destruct Hp as [<-|[]]; auto).
      intros q. destruct Ep as [->| ->]; split; intros [x H]; apply targets_selects in H; cbn in H; destruct H as [H|[]]; injection H as <- <-;
        eexists; apply targets_selects; cbn; left; reflexivity.
Qed.
Lemma ex_all_fit :
  waves_ok ex_info [ex_nodes] /\
  all_fit ex_ryu ex_pt ex_xxh (fun _ => ""%string) None ex_answer (fun _ => 0%N) (fun _ => 0%N) ex_info (fun _ _ => true) ex_resolve [ex_nodes] ex_d.
Proof.
  split; [constructor; [split; [reflexivity|apply ex_batch_ok]|constructor]|]. split; [exact ex_fit|]. intros; exact Logic.I.
Qed.
