(** C32: simplifying a plan keeps what running it does. *)
From Coq Require Import String List NArith ZArith Bool Permutation Sorted Lia.
From Verif Require Import StrOrd StrUtil JsonModel MergeModel MergeSpec Ast AstHashModel TraverseModel TraverseSpec TraverseProofs RewriteModel
  ProjModel ProjSpec RequiresModel RequiresProofs EntityModel EntitySpec ExecModel ExecSpec ExecProofs ExecRun
  QplanModel QplanSpec QplanGroup QplanParallel QplanRun QplanWave QplanEnd.
Import ListNotations.
Local Open Scope nat_scope.
Local Open Scope list_scope.

(** Flattening a sequence and joining neighbouring conditions on the same variable leaves the runs
    exactly as they were. *)
Theorem C32_sequences_keep_their_runs :
  forall ryu pt xxh show vars answer l,
  forallb proper (flat_map flatten_sequence l) = true ->
  forall c tr c', run ryu pt xxh show vars answer (NSequence (optimize_plan_sequence l)) c tr c' <->
                  run ryu pt xxh show vars answer (NSequence l) c tr c'.
Proof. exact sequences_keep. Qed.
Print Assumptions C32_sequences_keep_their_runs.

(** Below a condition nothing else happens: the optimised node runs exactly like the node. *)
Theorem C32_simple_nodes_keep_their_runs :
  forall ryu pt xxh show vars answer HF HX info alike n, simple n = true ->
  exists n', optimize_node HF HX info alike n = Some n' /\ simple n' = true /\
  forall c tr c', run ryu pt xxh show vars answer n' c tr c' <-> run ryu pt xxh show vars answer n c tr c'.
Proof. exact simple_keep. Qed.
Print Assumptions C32_simple_nodes_keep_their_runs.

(** A parallel node keeps its members, except that groups of fetches to one service become batches:
    operations without clashing names that declare exactly the variables of their fetches. *)
Theorem C32_batches_replace_fetches :
  forall HF HX info alike nodes, Forall own_vars (candidates info nodes) ->
  exists nodes' bs, optimize_parallel HF HX info alike nodes = Some nodes' /\ regrouped nodes nodes' bs.
Proof. exact batches_replace. Qed.
Print Assumptions C32_batches_replace_fetches.

(** When comparing confuses no two fetches, a batch does the work of its fetches and no other. *)
Theorem C32_batches_keep_the_work :
  forall HF HX info alike nodes, Forall own_vars (candidates info nodes) -> discerning HF HX alike (candidates info nodes) ->
  exists nodes' bs, optimize_parallel HF HX info alike nodes = Some nodes' /\ regrouped nodes nodes' bs /\
                    Forall (fun gb => same_work (fst gb) (snd gb)) bs.
Proof. exact batches_keep_work. Qed.
Print Assumptions C32_batches_keep_the_work.

(** Selections without arguments, aliases and conditions are never confused, whatever the hashes. *)
Theorem C32_bare_selections_are_discerned :
  forall HF HX alike cs,
  (forall c, In c cs -> forallb bare (k_requires c) = true /\ forallb bare (k_selection c) = true) ->
  discerning HF HX alike cs.
Proof. exact bare_discerning. Qed.
Print Assumptions C32_bare_selections_are_discerned.

(** The order in which the map of subgraphs is walked makes no difference. *)
Theorem C32_subgraph_order_is_irrelevant :
  forall HF HX info alike nodes m rs, Forall own_vars (candidates info nodes) ->
  Permutation (by_subgraph (candidates info nodes)) m -> replacements_of HF HX alike m = Some rs ->
  optimize_parallel HF HX info alike nodes = Some (apply_replacements rs nodes).
Proof. exact subgraph_order. Qed.
Print Assumptions C32_subgraph_order_is_irrelevant.

(** Simplifying never fails; the plan has fetches only in its parallel nodes (as C42 needs), and it
    runs exactly like the sequence of its waves, each with its fetches batched. *)
Theorem C32_the_plan_runs_its_waves :
  forall ryu pt xxh show vars answer HF HX info alike waves, waves_ok info waves ->
  exists n waves', plan_of_waves HF HX info alike waves = Some n /\ shaped n = true /\
    Forall2 (fun w w' => optimize_parallel HF HX info alike w = Some w') waves waves' /\
    forall c tr c', run ryu pt xxh show vars answer n c tr c' <->
                    run ryu pt xxh show vars answer (NSequence (map NParallel waves')) c tr c'.
Proof. exact plan_runs_waves. Qed.
Print Assumptions C32_the_plan_runs_its_waves.

(** A wave and the wave with its fetches batched give the same data, when services answer entity by
    entity and answers do not contradict each other ([fit]). *)
Theorem C32_a_batched_wave_gives_the_same_data :
  forall ryu pt xxh show vars answer HF HX info alike resolve nodes nodes' c,
  Forall own_vars (candidates info nodes) -> fit ryu pt xxh vars answer HF HX info alike resolve nodes (c_data c) ->
  optimize_parallel HF HX info alike nodes = Some nodes' ->
  forall tr c1 tr' c2, run ryu pt xxh show vars answer (NParallel nodes) c tr c1 ->
  run ryu pt xxh show vars answer (NParallel nodes') c tr' c2 -> c_data c1 = c_data c2.
Proof. exact batched_wave. Qed.
Print Assumptions C32_a_batched_wave_gives_the_same_data.

(** The simplified plan gives the data of the waves it was made of. *)
Theorem C32_the_plan_gives_the_same_data :
  forall ryu pt xxh show vars answer HF HX info alike resolve waves c, waves_ok info waves ->
  all_fit ryu pt xxh show vars answer HF HX info alike resolve waves (c_data c) ->
  exists n, plan_of_waves HF HX info alike waves = Some n /\
  forall tr c1 tr' c2, run ryu pt xxh show vars answer (NSequence (map NParallel waves)) c tr c1 ->
  run ryu pt xxh show vars answer n c tr' c2 -> c_data c1 = c_data c2.
Proof. exact plan_same_data. Qed.
Print Assumptions C32_the_plan_gives_the_same_data.

(** Two fetches whose selections differ in an argument only, [f(x: null)] and [f(x: "null")], are
    merged into one: the selections compare equal without their arguments, and the hash takes the
    two arguments for the same, whatever hash functions are used.  The second never gets sent. *)
Theorem C32_arguments_are_confused_refuted :
  exists info nodes c1 c2, forallb step_node nodes = true /\ Forall own_vars (candidates info nodes) /\
  candidates info nodes = [c1; c2] /\ k_selection c1 <> k_selection c2 /\
  forall HF HX alike, exists b, optimize_parallel HF HX info alike nodes = Some [NBatch (bt_node b)] /\
    replacements_of HF HX alike (by_subgraph (candidates info nodes)) = Some [(0, b, [0; 1])] /\
    map snd (bt_items b) = [k_selection c1] /\ ~ In (task_of c2) (batch_tasks b).
Proof. exact arguments_confused. Qed.
Print Assumptions C32_arguments_are_confused_refuted.

(** ** Examples *)
Example C32_example_sequence :
  optimize_plan_sequence [NCondition "v" (Some (NFetch (mkfetch 1 "a" None [] []))) None;
                          NCondition "v" (Some (NFetch (mkfetch 2 "b" None [] []))) None;
                          NCondition "v" None (Some (NFetch (mkfetch 3 "c" None [] [])))]
  = [NCondition "v" (Some (NSequence [NFetch (mkfetch 1 "a" None [] []); NFetch (mkfetch 2 "b" None [] [])])) None;
     NCondition "v" None (Some (NFetch (mkfetch 3 "c" None [] [])))].
Proof. reflexivity. Qed.
Example C32_example_batch :
  Forall own_vars (candidates ex_info ex_nodes) /\ discerning (fun _ => 0%N) (fun _ => 0%N) (fun _ _ => true) (candidates ex_info ex_nodes) /\
  optimize_parallel (fun _ => 0%N) (fun _ => 0%N) ex_info (fun _ _ => true) ex_nodes
  = Some [NBatch (mkbatch 1 "s" [mkalias "_e0" "__batch_reps_0" [[FField "a"]; [FField "b"]] ex_id [] []])].
Proof. exact ex_batch_ok. Qed.
(** the assumptions of the last two theorems can be met, with a batch *)
Example C32_example_fit :
  waves_ok ex_info [ex_nodes] /\
  all_fit ex_ryu ex_pt ex_xxh (fun _ => ""%string) None ex_answer (fun _ => 0%N) (fun _ => 0%N) ex_info (fun _ _ => true) ex_resolve [ex_nodes] ex_d.
Proof. exact ex_all_fit. Qed.
