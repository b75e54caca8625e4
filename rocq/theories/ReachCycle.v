(* The rule on cycles of fragments. *)
From Coq Require Import String List Bool Arith Lia.
From Verif Require Import StrUtil Ast ConsumerModel IntroModel CondModel NormModel NormProofs WalkModel LocalModel LocalSpec WalkProofs LocalBase LocalRun LocalProofs LocalState ReachModel ReachSpec ReachBase ReachCalls ReachVars.
Import ListNotations.
Local Open Scope string_scope.
Local Open Scope list_scope.

Lemma spreads_of_in : forall set n, In n (spreads_of set) <-> exists ds, In (NSpread n ds) set.
Proof.
  intros set n. unfold spreads_of. rewrite in_flat_map. split.
  - intros (y & I & K). destruct y as [al f args ds sub|m ds|tc ds sub]; try (destruct K; fail). destruct K as [->|[]]. now exists ds.
  - intros (ds & I). exists (NSpread n ds). split; [exact I|now left].
Qed.
Lemma two_levels_in : forall set n, In n (two_levels set) <-> near set n.
Proof.
  intros set n. unfold two_levels, near. rewrite in_flat_map. split.
  - intros (y & I & K). destruct y as [al f args ds sub|m ds|tc ds sub].
    + apply spreads_of_in in K. destruct K as (ds' & K). right. exists sub, ds'. split; [exact K|]. left. now exists al, f, args, ds.
    + destruct K as [->|[]]. left. now exists ds.
    + apply spreads_of_in in K. destruct K as (ds' & K). right. exists sub, ds'. split; [exact K|]. right. now exists tc, ds.
  - intros [(ds & I)|(sub & ds & I & [(al & f & args & ds' & J)|(tc & ds' & J)])].
    + exists (NSpread n ds). split; [exact I|now left].
    + exists (NField al f args ds' sub). split; [exact J|]. apply spreads_of_in. now exists ds.
    + exists (NInline tc ds' sub). split; [exact J|]. apply spreads_of_in. now exists ds.
Qed.
Lemma near_spreads : forall n tc ds set m, near set m -> spreads (QFrag n tc ds set) m.
Proof.
  intros n tc ds set m [(d & I)|(sub & d & I & [(al & f & args & ds' & J)|(tc' & ds' & J)])]; exists d; cbn [set_of].
  - now apply within_here.
  - eapply within_field; [exact J|]. now apply within_here.
  - eapply within_inline; [exact J|]. now apply within_here.
Qed.
Lemma chain_snoc : forall R a via b c, chain R a via b -> R b c -> chain R a (via ++ [b]) c.
Proof.
  intros R a via b c C. induction C as [a b H|a b via d H C IH]; intros K; cbn.
  - apply chain_more; [exact H|]. now apply chain_last.
  - apply chain_more; [exact H|]. now apply IH.
Qed.

Section Cycle.
  Variable doc : list qdef.

  (* * Steps are enough *)
  Definition unvisited (visited : list string) : nat :=
    list_sum (map (fun d => match d with QFrag n _ _ set => if smem n visited then 0 else cycle_weight set | _ => 0 end) doc).
  Lemma unvisited_step : forall visited n tc ds set, In (QFrag n tc ds set) doc -> ~ In n visited ->
    unvisited (visited ++ [n]) + cycle_weight set <= unvisited visited.
  Proof.
    intros visited n tc ds set. unfold unvisited.
    assert (LE : forall l, list_sum (map (fun d => match d with QFrag m _ _ set => if smem m (visited ++ [n]) then 0 else cycle_weight set | _ => 0 end) l)
      <= list_sum (map (fun d => match d with QFrag m _ _ set => if smem m visited then 0 else cycle_weight set | _ => 0 end) l)).
    { induction l as [|d l IH]; [reflexivity|]. cbn. apply Nat.add_le_mono; [|exact IH]. destruct d as [m tc' ds' set'|]; [|reflexivity].
      destruct (smem m visited) eqn:M.
      - apply smem_iff in M. assert (M' : smem m (visited ++ [n]) = true) by (apply smem_iff, in_app_iff; now left). now rewrite M'.
      - destruct (smem m (visited ++ [n])); lia. }
    induction doc as [|d l IH]; intros I N; [destruct I|]. cbn [map list_sum fold_right]. destruct I as [->|I].
    - assert (M : smem n visited = false) by now apply smem_not. assert (M' : smem n (visited ++ [n]) = true) by (apply smem_iff, in_app_iff; right; now left).
      rewrite M, M'. specialize (LE l). unfold list_sum in *. cbn [Nat.add]. rewrite Nat.add_comm. apply Nat.add_le_mono_l. exact LE.
    - specialize (IH I N). specialize (LE [d]). unfold list_sum in *. cbn [map fold_right] in LE. rewrite !Nat.add_0_r in LE. rewrite <- Nat.add_assoc. apply Nat.add_le_mono; [exact LE|exact IH].
  Qed.
  Definition frame_weight (f : frame) : nat := match f with EnterSpreadOf _ => 3 | _ => 1 end.
  Definition weight_all (stk : list frame) : nat := list_sum (map frame_weight stk).
  Lemma weight_app : forall a b, weight_all (a ++ b) = weight_all a + weight_all b.
  Proof. intros a b. unfold weight_all. now rewrite map_app, list_sum_app. Qed.
  Lemma weight_spreads : forall l, weight_all (map EnterSpreadOf l) = 3 * List.length l.
  Proof. induction l as [|x l IH]; [reflexivity|]. change (weight_all (map EnterSpreadOf (x :: l))) with (3 + weight_all (map EnterSpreadOf l)). rewrite IH. cbn [List.length]. lia. Qed.
  Lemma weight_cons : forall f stk, weight_all (f :: stk) = frame_weight f + weight_all stk.
  Proof. reflexivity. Qed.
  Definition entered_in (stk : list frame) : Prop := forall n set, In (EnterFragment n set) stk -> exists tc ds, In (QFrag n tc ds set) doc.
  Lemma step_weight : forall f stk s, entered_in (f :: stk) ->
    entered_in (fst (cycle_step doc f s) ++ stk) /\
    weight_all (fst (cycle_step doc f s) ++ stk) + unvisited (cs_visited (snd (cycle_step doc f s))) + 1 <= weight_all (f :: stk) + unvisited (cs_visited s).
  Proof.
    intros f stk s EI.
    assert (TAIL : entered_in stk) by (intros n set I; apply (EI n set); now right).
    destruct f as [n set|n|n|]; cbn [cycle_step].
    - destruct (smem n (cs_visited s)) eqn:V.
      + cbn [fst snd app cs_visited]. split; [exact TAIL|]. rewrite weight_cons. cbn [frame_weight]. lia.
      + apply smem_not in V. destruct (EI n set (or_introl eq_refl)) as (tc & ds & I). pose proof (unvisited_step _ _ _ _ _ I V) as U. unfold cycle_weight in U.
        destruct (two_levels set) as [|x l] eqn:T.
        * cbn [fst snd cs_visited app]. split; [exact TAIL|]. change (weight_all (EnterFragment n set :: stk)) with (1 + weight_all stk). lia.
        * cbn [fst snd cs_visited]. split.
          -- intros m st J. rewrite <- app_assoc in J. apply in_app_iff in J. destruct J as [J|[J|J]]; [|discriminate J|now apply TAIL].
             apply in_map_iff in J. destruct J as (y & J & _). discriminate J.
          -- rewrite !weight_app, weight_spreads. change (weight_all (EnterFragment n set :: stk)) with (1 + weight_all stk). change (weight_all [ExitFragment n]) with 1. lia.
    - cbn [fst snd app cs_visited]. split; [exact TAIL|]. rewrite weight_cons. cbn [frame_weight]. lia.
    - destruct (mget String.eqb (cs_index s) n) as [i|].
      + cbn [fst snd app cs_visited]. split; [exact TAIL|]. rewrite weight_cons. cbn [frame_weight]. lia.
      + destruct (known_fragment doc n None) as [[m tc ds set|]|] eqn:K.
        * apply known_fragment_in in K. destruct K as [K|(tc' & ds' & set' & K & I)]; [discriminate K|]. injection K as -> -> -> ->. cbn [fst snd cs_visited app]. split.
          -- intros m st [J|[J|J]]; [|discriminate J|now apply TAIL]. injection J as <- <-. now exists tc', ds'.
          -- rewrite !weight_cons. cbn [frame_weight]. lia.
        * cbn [fst snd app cs_visited]. split; [exact TAIL|]. rewrite weight_cons. cbn [frame_weight]. lia.
        * cbn [fst snd app cs_visited]. split; [exact TAIL|]. rewrite weight_cons. cbn [frame_weight]. lia.
    - cbn [fst snd app cs_visited]. split; [exact TAIL|]. rewrite weight_cons. cbn [frame_weight]. lia.
  Qed.
  Lemma run_ends : forall fuel stk s, entered_in stk -> weight_all stk + unvisited (cs_visited s) <= fuel -> exists s', cycle_run doc fuel stk s = Some s'.
  Proof.
    induction fuel as [|fuel IH]; intros stk s EI H.
    - destruct stk as [|f stk]; [now exists s|]. rewrite weight_cons in H. destruct f; cbn [frame_weight] in H; lia.
    - destruct stk as [|f stk]; [now exists s|]. cbn [cycle_run]. destruct (step_weight f stk s EI) as [E1 E2].
      destruct (cycle_step doc f s) as [push s'] eqn:E. cbn [fst snd] in *. apply IH; [exact E1|]. lia.
  Qed.
  Lemma fuel_enough : forall n tc ds set visited, In (QFrag n tc ds set) doc ->
    exists s, cycle_run doc (cycle_fuel doc set) [EnterFragment n set] (mkcstate visited [] [] []) = Some s.
  Proof.
    intros n tc ds set visited I. apply run_ends.
    - intros m st [J|[]]. injection J as <- <-. now exists tc, ds.
    - unfold cycle_fuel. cbn [cs_visited]. change (weight_all [EnterFragment n set]) with 1.
      assert (U : unvisited visited <= list_sum (map (fun d => match d with QFrag _ _ _ set => cycle_weight set | _ => 0 end) doc)).
      { unfold unvisited. clear. induction doc as [|d l IH]; [reflexivity|]. cbn. apply Nat.add_le_mono; [|exact IH]. destruct d as [m tc ds set|]; [|reflexivity]. destruct (smem m visited); lia. }
      lia.
  Qed.

  (* * The stack *)
  Section Shape.
    Variable Q : string -> list string -> option string -> Prop.
    (* what is open, the innermost first *)
    Inductive opn : option string -> list frame -> list string -> list string -> Prop :=
    | opn_first nx l f : (forall x, In x l -> edge doc f x) -> Q f l nx -> opn nx (map EnterSpreadOf l ++ [ExitFragment f]) [f] []
    | opn_more nx l f g P stk paths :
        (forall x, In x l -> edge doc f x) -> Q f l nx -> opn (Some f) stk (g :: P) paths -> edge doc g f ->
        opn nx (map EnterSpreadOf l ++ ExitFragment f :: PopSpread :: stk) (f :: g :: P) (paths ++ [f]).
    Variable done : string -> Prop.
    Inductive shape : list frame -> list string -> list string -> Prop :=
    | shape_end : shape [] [] []
    | shape_root n tc ds set : In (QFrag n tc ds set) doc -> shape [EnterFragment n set] [] []
    | shape_open stk P paths : opn None stk P paths -> shape stk P paths
    | shape_enter m tc ds set stk g P paths :
        In (QFrag m tc ds set) doc -> ~ In m (g :: P) -> edge doc g m -> opn (Some m) stk (g :: P) paths ->
        shape (EnterFragment m set :: PopSpread :: stk) (g :: P) (paths ++ [m])
    | shape_pop m stk g P paths : done m -> opn (Some m) stk (g :: P) paths -> shape (PopSpread :: stk) (g :: P) (paths ++ [m]).
  End Shape.
  Lemma opn_mono : forall (Q Q' : string -> list string -> option string -> Prop), (forall f l nx, Q f l nx -> Q' f l nx) ->
    forall nx stk P paths, opn Q nx stk P paths -> opn Q' nx stk P paths.
  Proof.
    intros Q Q' H nx stk P paths O. induction O as [nx l f E K|nx l f g P stk paths E K O IH G].
    - apply opn_first; auto.
    - apply opn_more; auto.
  Qed.
  Lemma opn_rev : forall Q nx stk P paths, opn Q nx stk P paths -> exists f0, rev P = f0 :: paths.
  Proof.
    intros Q nx stk P paths O. induction O as [nx l f E K|nx l f g P stk paths E K O [f0 IH] G].
    - now exists f.
    - exists f0. cbn [rev] in *. rewrite IH. reflexivity.
  Qed.
  Lemma opn_next : forall (Q : string -> list string -> option string -> Prop) nx nx', (forall f l, Q f l nx -> Q f l nx') ->
    forall stk P paths, opn Q nx stk P paths -> opn Q nx' stk P paths.
  Proof.
    intros Q nx nx' H stk P paths O. inversion O; subst; [apply opn_first|apply opn_more]; auto.
  Qed.
  Lemma opn_chain : forall Q nx stk P paths, opn Q nx stk P paths -> forall a n b x, rev P = a ++ n :: b -> (forall f P', P = f :: P' -> edge doc f x) -> chain (edge doc) n b x.
  Proof.
    intros Q nx stk P paths O. induction O as [nx l f E K|nx l f g P stk paths E K O IH G]; intros a n b x R H.
    - specialize (H f [] eq_refl). destruct a as [|a0 a]; [injection R as <- <-; now apply chain_last|]. injection R as _ R. now destruct a.
    - specialize (H f (g :: P) eq_refl). change (rev (f :: g :: P)) with (rev (g :: P) ++ [f]) in R.
      destruct b as [|b0 b] using rev_ind.
      + apply app_inj_tail in R. destruct R as [_ <-]. now apply chain_last.
      + clear IHb. change (a ++ n :: b ++ [b0]) with (a ++ (n :: b) ++ [b0]) in R. rewrite app_assoc in R. apply app_inj_tail in R. destruct R as [R <-].
        apply chain_snoc; [|exact H]. eapply IH; [exact R|]. intros f0 P' E0. now injection E0 as <- <-.
  Qed.

  Definition idx_ok (index : list (string * nat)) (P : list string) : Prop :=
    forall x i, mget String.eqb index x = Some i <-> nth_error (rev P) i = Some x.
  Lemma idx_none : forall index P x, idx_ok index P -> (mget String.eqb index x = None <-> ~ In x P).
  Proof.
    intros index P x I. split.
    - intros N K. apply in_rev in K. apply In_nth_error in K. destruct K as [i K]. apply I in K. congruence.
    - intros N. destruct (mget String.eqb index x) as [i|] eqn:E; [|reflexivity]. apply I, nth_error_In, in_rev in E. contradiction.
  Qed.
  Lemma idx_push : forall index P x, idx_ok index P -> ~ In x P -> idx_ok (mput String.eqb index x (List.length P)) (x :: P).
  Proof.
    intros index P x I N y i. rewrite (mget_put _ ss_eq). cbn [rev]. destruct (String.eqb y x) eqn:E.
    - apply String.eqb_eq in E. subst y. split.
      + intros [= <-]. rewrite nth_error_app2; rewrite rev_length; [|lia]. now rewrite Nat.sub_diag.
      + intros H. destruct (Nat.lt_ge_cases i (List.length (rev P))) as [L|L].
        * rewrite nth_error_app1 in H by exact L. apply nth_error_In, in_rev in H. contradiction.
        * rewrite nth_error_app2 in H by exact L. rewrite rev_length in *. destruct (i - List.length P) as [|j] eqn:D; [f_equal; lia|].
          cbn in H. destruct j; discriminate H.
    - apply String.eqb_neq in E. rewrite (I y i). split.
      + intros H. rewrite nth_error_app1; [exact H|]. apply nth_error_Some. congruence.
      + intros H. destruct (Nat.lt_ge_cases i (List.length (rev P))) as [L|L].
        * now rewrite nth_error_app1 in H.
        * rewrite nth_error_app2 in H by exact L. destruct (i - List.length (rev P)) as [|[|j]]; cbn in H; congruence.
  Qed.
  Lemma idx_pop : forall index P x, idx_ok index (x :: P) -> NoDup (x :: P) -> idx_ok (mdel String.eqb index x) P.
  Proof.
    intros index P x I ND y i. rewrite (mget_del _ ss_eq). inversion ND as [|a b NI ND']; subst. destruct (String.eqb y x) eqn:E.
    - apply String.eqb_eq in E. subst y. split; [discriminate|]. intros H. apply nth_error_In, in_rev in H. contradiction.
    - apply String.eqb_neq in E. rewrite (I y i). cbn [rev]. split.
      + intros H. destruct (Nat.lt_ge_cases i (List.length (rev P))) as [L|L].
        * now rewrite nth_error_app1 in H.
        * rewrite nth_error_app2 in H by exact L. destruct (i - List.length (rev P)) as [|[|j]]; cbn in H; congruence.
      + intros H. rewrite nth_error_app1; [exact H|]. apply nth_error_Some. congruence.
  Qed.

  (* * What holds between steps *)
  Definition finished (visited P : list string) (b : string) : Prop := In b visited /\ ~ In b P.
  Definition closed (F : string -> Prop) : Prop := forall a b, F a -> near_edge doc a b -> F b.
  Definition acyclic (F : string -> Prop) : Prop := forall a via, F a -> ~ chain (near_edge doc) a via a.
  (* what was visited before *)
  Variable before : list string.
  Definition settled (visited : list string) : Prop := closed (fun x => In x visited) /\ acyclic (fun x => In x visited).
  Definition clean (s : cstate) : Prop := (NoDup (fragment_names doc) /\ settled before) /\ cs_errors s = [].
  Definition pending (s : cstate) (P : list string) (f : string) (l : list string) (nx : option string) : Prop :=
    clean s -> forall b, near_edge doc f b -> In b l \/ finished (cs_visited s) P b \/ nx = Some b.
  Definition report (e : rerr) : Prop := exists n via, e = FragmentCycle n via /\ chain (edge doc) n via n.
  Record inv (stk : list frame) (P : list string) (s : cstate) : Prop := mkinv {
    inv_shape : shape (pending s P) (finished (cs_visited s) P) stk P (cs_paths s);
    inv_index : idx_ok (cs_index s) P;
    inv_nodup : NoDup P;
    inv_visited : forall x, In x P -> In x (cs_visited s);
    inv_reports : forall e, In e (cs_errors s) -> report e;
    inv_clean : clean s -> closed (finished (cs_visited s) P) /\ acyclic (finished (cs_visited s) P) }.

  Lemma chain_leaves : forall (F : string -> Prop) a via b, closed F -> F a -> chain (near_edge doc) a via b -> F b.
  Proof.
    intros F a via b C A H. induction H as [a b H|a b via c H K IH]; [now apply (C a)|]. apply IH. now apply (C a).
  Qed.
  Lemma grow : forall (F F' : string -> Prop) n, closed F -> acyclic F -> ~ F n -> (forall b, near_edge doc n b -> F b) ->
    (forall x, F' x <-> F x \/ x = n) -> closed F' /\ acyclic F'.
  Proof.
    intros F F' n C A N S E. split.
    - intros a b FA H. apply E. left. apply E in FA. destruct FA as [FA| ->]; [now apply (C a)|now apply S].
    - intros a via FA H. apply E in FA. destruct FA as [FA| ->]; [exact (A a via FA H)|]. apply N.
      inversion H as [x y K|x y via' z K H']; subst; [now apply S|]. apply S in K. exact (chain_leaves F y via' n C K H').
  Qed.
  Lemma one_set : forall n tc ds set b, NoDup (fragment_names doc) -> In (QFrag n tc ds set) doc -> near_edge doc n b -> In b (two_levels set).
  Proof.
    intros n tc ds set b ND I (tc' & ds' & set' & J & K & _). apply two_levels_in.
    apply (known_fragment_ok _ _ _ _ _ ND) in I. apply (known_fragment_ok _ _ _ _ _ ND) in J. rewrite I in J. now injection J as -> -> ->.
  Qed.
  Lemma opn_nil : forall Q nx P paths, ~ opn Q nx [] P paths.
  Proof. intros Q nx P paths O. inversion O; subst; now destruct l. Qed.

  Lemma opn_spread : forall Q nx n stk P paths, opn Q nx (EnterSpreadOf n :: stk) P paths ->
    exists f l P', P = f :: P' /\ edge doc f n /\ Q f (n :: l) nx /\ forall (Q' : string -> list string -> option string -> Prop) nx',
      (forall f l nx, Q f l nx -> Q' f l nx) -> Q' f l nx' -> opn Q' nx' stk P paths.
  Proof.
    intros Q nx n stk P paths O. inversion O as [nx0 l f E K A B C D|nx0 l f g P0 stk0 paths0 E K O' G A B C D]; subst.
    - destruct l as [|n' l]; [discriminate|]. cbn in B. injection B as -> <-. exists f, l, []. split; [reflexivity|]. split; [apply E; now left|]. split; [exact K|].
      intros Q' nx' M K'. apply opn_first; [|exact K']. intros x X. apply E. now right.
    - destruct l as [|n' l]; [discriminate|]. cbn in B. injection B as -> <-. exists f, l, (g :: P0). split; [reflexivity|]. split; [apply E; now left|]. split; [exact K|].
      intros Q' nx' M K'. apply opn_more; [|exact K'| |exact G]; [intros x X; apply E; now right|]. eapply opn_mono; [exact M|exact O'].
  Qed.
  Lemma opn_exit : forall Q nx n stk P paths, opn Q nx (ExitFragment n :: stk) P paths ->
    Q n [] nx /\ ((P = [n] /\ stk = [] /\ paths = []) \/
      exists g P' stk' paths', P = n :: g :: P' /\ stk = PopSpread :: stk' /\ paths = paths' ++ [n] /\ opn Q (Some n) stk' (g :: P') paths').
  Proof.
    intros Q nx n stk P paths O. inversion O as [nx0 l f E K A B C D|nx0 l f g P0 stk0 paths0 E K O' G A B C D]; subst.
    - destruct l as [|n' l]; [|discriminate]. cbn in B. injection B as -> <-. split; [exact K|]. now left.
    - destruct l as [|n' l]; [|discriminate]. cbn in B. injection B as -> <-. split; [exact K|]. right. now exists g, P0, stk0, paths0.
  Qed.
  Lemma opn_top : forall Q nx f stk P paths, opn Q nx (f :: stk) P paths -> (exists n, f = EnterSpreadOf n) \/ exists n, f = ExitFragment n.
  Proof.
    intros Q nx f stk P paths O. inversion O as [nx0 l g E K A B C D|nx0 l g h P0 stk0 paths0 E K O' G A B C D]; subst;
      (destruct l as [|n' l]; cbn in B; injection B as <- <-; [right|left]; eexists; reflexivity).
  Qed.

  Lemma inv_step : forall f stk P s, inv (f :: stk) P s -> exists P', inv (fst (cycle_step doc f s) ++ stk) P' (snd (cycle_step doc f s)).
  Proof.
    intros f stk P s [SH IX ND VI RE CL].
    assert (ENTER : forall n tc ds set stk', f = EnterFragment n set -> In (QFrag n tc ds set) doc -> ~ In n P ->
      List.length (cs_paths s) = List.length P ->
      (forall s', (forall b, finished (cs_visited s) P b -> finished (cs_visited s') P b) -> cs_errors s' = cs_errors s -> cs_paths s' = cs_paths s ->
         In n (cs_visited s') -> shape (pending s' P) (finished (cs_visited s') P) stk' P (cs_paths s')) ->
      (forall s' l, (forall b, finished (cs_visited s) P b -> finished (cs_visited s') (n :: P) b) -> cs_errors s' = cs_errors s -> cs_paths s' = cs_paths s ->
         (forall x, In x l -> edge doc n x) -> pending s' (n :: P) n l None ->
         shape (pending s' (n :: P)) (finished (cs_visited s') (n :: P)) (map EnterSpreadOf l ++ ExitFragment n :: stk') (n :: P) (cs_paths s')) ->
      exists P', inv (fst (cycle_step doc f s) ++ stk') P' (snd (cycle_step doc f s))).
    { intros n tc ds set stk' -> I NP LEN A B. cbn [cycle_step]. destruct (smem n (cs_visited s)) eqn:V.
      - apply smem_iff in V. exists P. cbn [fst snd app]. constructor; try assumption. apply A; auto.
      - apply smem_not in V. destruct (two_levels set) as [|x l] eqn:T.
        + exists P. cbn [fst snd app]. constructor; cbn [cs_visited cs_index cs_errors cs_paths]; try assumption.
          * apply (A (mkcstate (cs_visited s ++ [n]) (cs_paths s) (cs_index s) (cs_errors s))); cbn; try reflexivity.
            -- intros b [FB1 FB2]. split; [apply in_app_iff; now left|exact FB2].
            -- apply in_app_iff. right. now left.
          * intros x X. apply in_app_iff. left. now apply VI.
          * intros C. destruct (CL C) as [C1 C2]. apply (grow (finished (cs_visited s) P) _ n C1 C2).
            -- intros [K _]. contradiction.
            -- intros b H. apply (one_set _ _ _ _ _ (proj1 (proj1 C)) I) in H. rewrite T in H. destruct H.
            -- intros y. unfold finished. rewrite in_app_iff. cbn [In]. split; [intros [[K|[->|[]]] N]; [left; now split|now right]|].
               intros [[K N]| ->]; [split; [now left|exact N]|split; [right; now left|exact NP]].
        + exists (n :: P). cbn [fst snd]. rewrite <- T, <- app_assoc. cbn [app].
          assert (FIN : forall b, finished (cs_visited s ++ [n]) (n :: P) b <-> finished (cs_visited s) P b).
          { intros b. unfold finished. rewrite in_app_iff. cbn [In]. split.
            - intros [[K|[->|[]]] N]; [split; [exact K|tauto]|]. destruct N. now left.
            - intros [K N]. split; [now left|]. intros [->|K']; contradiction. }
          constructor; cbn [cs_visited cs_index cs_errors cs_paths].
          * apply (B (mkcstate (cs_visited s ++ [n]) (cs_paths s) (mput String.eqb (cs_index s) n (List.length (cs_paths s))) (cs_errors s))); cbn; try reflexivity.
            -- intros b FB. now apply FIN.
            -- intros y Y. apply two_levels_in in Y. exists tc, ds, set. split; [exact I|]. now apply near_spreads.
            -- intros C b H. left. eapply one_set; [exact (proj1 (proj1 C))|exact I|exact H].
          * rewrite LEN. now apply idx_push.
          * now constructor.
          * intros y [->|Y]; apply in_app_iff; [right; now left|left; now apply VI].
          * exact RE.
          * intros C. destruct (CL C) as [C1 C2]. split.
            -- intros a b FA H. apply FIN. apply FIN in FA. now apply (C1 a).
            -- intros a via FA. apply FIN in FA. now apply C2. }
    inversion SH as [A B C|n tc ds set I A B C|stk0 P0 paths O A B C|m tc ds set stk0 g P0 paths I N G O A B C|m stk0 g P0 paths D O A B C]; subst.
    - (* the first fragment *)
      apply (ENTER n tc ds set [] eq_refl I).
      + intros [].
      + now rewrite <- C.
      + intros s' _ _ E _. rewrite E, <- C. apply shape_end.
      + intros s' l _ _ E L PE. rewrite E, <- C. apply shape_open. now apply opn_first.
    - (* the spreads of a fragment, or its end *)
      destruct (opn_top _ _ _ _ _ _ O) as [(n & ->)|(n & ->)].
      + destruct (opn_spread _ _ _ _ _ _ O) as (g & l & P' & -> & G & PE & CONT). cbn [cycle_step].
        destruct (mget String.eqb (cs_index s) n) as [i|] eqn:IDX.
        * exists (g :: P'). cbn [fst snd app]. apply IX in IDX.
          assert (REP : report (if Nat.ltb (List.length (cs_paths s ++ [n])) i then Panicked else FragmentCycle n (removelast (skipn i (cs_paths s ++ [n]))))).
          { destruct (opn_rev _ _ _ _ _ O) as (f0 & RV). assert (LI : i < List.length (rev (g :: P'))) by (apply nth_error_Some; congruence).
            rewrite RV in LI. cbn [List.length] in LI. rewrite app_length. cbn [List.length].
            destruct (Nat.ltb_spec (List.length (cs_paths s) + 1) i) as [L|_]; [lia|].
            destruct (nth_error_split _ _ IDX) as (a & b & SP & LA).
            exists n, (skipn i (cs_paths s)). split.
            - f_equal. rewrite skipn_app. replace (i - List.length (cs_paths s)) with 0 by lia. apply removelast_last.
            - replace (skipn i (cs_paths s)) with b.
              + eapply opn_chain; [exact O|exact SP|]. intros h P'' [= <- <-]. exact G.
              + assert (TL : cs_paths s = tl (rev (g :: P'))) by now rewrite RV. rewrite TL, SP. subst i. destruct a as [|a0 a]; [reflexivity|].
                cbn [app tl List.length]. rewrite skipn_app. rewrite (@skipn_all2 _ (S (List.length a)) a) by lia. replace (S (List.length a) - List.length a) with 1 by lia. reflexivity. }
          constructor; cbn [cs_visited cs_index cs_errors cs_paths]; try assumption.
          -- apply shape_open. apply CONT.
             ++ intros f' l' nx H C. destruct C as [_ C]. cbn in C. now destruct (cs_errors s).
             ++ intros C. destruct C as [_ C]. cbn in C. now destruct (cs_errors s).
          -- intros e K. apply in_app_iff in K. destruct K as [K|[<-|[]]]; [now apply RE|exact REP].
          -- intros C. destruct C as [_ C]. cbn in C. now destruct (cs_errors s).
        * apply (idx_none _ _ _ IX) in IDX. destruct (known_fragment doc n None) as [d|] eqn:K.
          -- pose proof K as K'. apply known_fragment_in in K'. destruct K' as [K'|(tc & ds & set & -> & I)]; [discriminate K'|].
             exists (g :: P'). cbn [fst snd app]. constructor; cbn [cs_visited cs_index cs_errors cs_paths]; try assumption.
             eapply shape_enter; [exact I|exact IDX|exact G|]. apply CONT.
             ++ intros f' l' nx H. exact H.
             ++ intros C b H. destruct (PE C b H) as [[<-|J]|[J|J]]; [right; now right|now left|right; now left|discriminate J].
          -- exists (g :: P'). cbn [fst snd app]. constructor; try assumption. apply shape_open. apply CONT; [intros f' l' nx H; exact H|].
             intros C b H. destruct (PE C b H) as [[<-|J]|[J|J]]; [|now left|right; now left|discriminate J].
             apply known_fragment_none in K. destruct H as (tc & ds & set & _ & _ & H). contradiction.
      + cbn [cycle_step fst snd app]. destruct (opn_exit _ _ _ _ _ _ O) as [PE CASE].
        assert (EX : exists P', P = n :: P') by (destruct CASE as [(-> & _)|(g & P' & stk' & paths' & -> & _)]; eexists; reflexivity).
        destruct EX as (P' & ->). exists P'. inversion ND as [|a b NI ND']; subst.
        assert (FIN : forall y, finished (cs_visited s) P' y <-> finished (cs_visited s) (n :: P') y \/ y = n).
        { intros y. unfold finished. cbn [In]. split.
          - intros [K NK]. destruct (string_dec y n) as [->|NE]; [now right|]. left. split; [exact K|]. intros [E|E]; [now apply NE|contradiction].
          - intros [[K NK]| ->]; [split; [exact K|tauto]|]. split; [apply VI; now left|exact NI]. }
        constructor; cbn [cs_visited cs_index cs_errors cs_paths]; try assumption.
        * destruct CASE as [(E1 & -> & ->)|(g & P'' & stk' & paths' & E1 & -> & -> & O')].
          -- injection E1 as ->. apply shape_end.
          -- injection E1 as ->. apply shape_pop; [apply FIN; now right|]. eapply opn_mono; [|exact O'].
             intros f' l' nx H C b HB. destruct (H C b HB) as [J|[J|J]]; [now left|right; left; apply FIN; now left|right; now right].
        * now apply idx_pop.
        * intros x X. apply VI. now right.
        * intros C. destruct (CL C) as [C1 C2]. apply (grow (finished (cs_visited s) (n :: P')) _ n C1 C2).
          -- intros [_ K]. apply K. now left.
          -- intros b H. destruct (PE C b H) as [[]|[J|J]]; [exact J|discriminate J].
          -- exact FIN.
    - (* a fragment that is spread *)
      apply (ENTER m tc ds set (PopSpread :: stk0) eq_refl I N).
      + destruct (opn_rev _ _ _ _ _ O) as (f0 & RV). rewrite <- C, app_length. assert (L : List.length (rev (g :: P0)) = S (List.length paths)) by now rewrite RV.
        rewrite rev_length in L. cbn [List.length] in *. lia.
      + intros s' F E1 E2 IN. rewrite E2, <- C. apply shape_pop; [now split|]. eapply opn_mono; [|exact O].
        intros f' l' nx H CS b HB. unfold clean in CS. rewrite E1 in CS. destruct (H CS b HB) as [J|[J|J]]; [now left|right; left; now apply F|right; now right].
      + intros s' l F E1 E2 L PE. rewrite E2, <- C. apply shape_open. apply opn_more; [exact L|exact PE| |exact G]. eapply opn_mono; [|exact O].
        intros f' l' nx H CS b HB. unfold clean in CS. rewrite E1 in CS. destruct (H CS b HB) as [J|[J|J]]; [now left|right; left; now apply F|right; now right].
    - (* back from a fragment *)
      exists (g :: P0). cbn [cycle_step fst snd app]. constructor; cbn [cs_visited cs_index cs_errors cs_paths]; try assumption.
      rewrite <- C, removelast_last. apply shape_open. eapply opn_next; [|exact O].
      intros f' l' H CS b HB. destruct (H CS b HB) as [J|[J|J]]; [now left|right; now left|]. injection J as <-. right. now left.
  Qed.
  Lemma inv_run : forall fuel stk P s s', inv stk P s -> cycle_run doc fuel stk s = Some s' -> exists P', inv [] P' s'.
  Proof.
    induction fuel as [|fuel IH]; intros stk P s s' I H.
    - destruct stk; [|discriminate H]. cbn in H. injection H as <-. now exists P.
    - destruct stk as [|f stk]; [cbn in H; injection H as <-; now exists P|]. cbn [cycle_run] in H.
      destruct (inv_step f stk P s I) as (P' & I'). destruct (cycle_step doc f s) as [push s1]. eapply IH; [exact I'|exact H].
  Qed.
  Lemma step_visited : forall f s x, In x (cs_visited s) -> In x (cs_visited (snd (cycle_step doc f s))).
  Proof.
    intros f s x X. destruct f as [n set|n|n|]; cbn [cycle_step].
    - destruct (smem n (cs_visited s)); [exact X|]. destruct (two_levels set); cbn; apply in_app_iff; now left.
    - exact X.
    - destruct (mget String.eqb (cs_index s) n); [exact X|]. destruct (known_fragment doc n None) as [[]|]; exact X.
    - exact X.
  Qed.
  Lemma run_visited : forall fuel stk s s', cycle_run doc fuel stk s = Some s' -> forall x, In x (cs_visited s) -> In x (cs_visited s').
  Proof.
    induction fuel as [|fuel IH]; intros stk s s' H x X.
    - destruct stk; [|discriminate H]. cbn in H. now injection H as <-.
    - destruct stk as [|f stk]; [cbn in H; now injection H as <-|]. cbn [cycle_run] in H. pose proof (step_visited f s x X) as X'.
      destruct (cycle_step doc f s) as [push s1]. eapply IH; [exact H|exact X'].
  Qed.
  Lemma run_root : forall fuel n set s s', cycle_run doc fuel [EnterFragment n set] s = Some s' -> In n (cs_visited s').
  Proof.
    intros [|fuel] n set s s' H; [discriminate H|]. cbn [cycle_run] in H.
    assert (X : In n (cs_visited (snd (cycle_step doc (EnterFragment n set) s)))).
    { cbn [cycle_step]. destruct (smem n (cs_visited s)) eqn:V; [now apply smem_iff|]. destruct (two_levels set); cbn; apply in_app_iff; right; now left. }
    destruct (cycle_step doc (EnterFragment n set) s) as [push s1]. eapply run_visited; [exact H|exact X].
  Qed.
End Cycle.

Lemma visit_one : forall doc n tc ds set visited, In (QFrag n tc ds set) doc ->
  exists s, cycle_run doc (cycle_fuel doc set) [EnterFragment n set] (mkcstate visited [] [] []) = Some s /\
    In n (cs_visited s) /\ (forall x, In x visited -> In x (cs_visited s)) /\ (forall e, In e (cs_errors s) -> report doc e) /\
    (NoDup (fragment_names doc) -> settled doc visited -> cs_errors s = [] -> settled doc (cs_visited s)).
Proof.
  intros doc n tc ds set visited I. destruct (fuel_enough doc n tc ds set visited I) as (s & R). exists s. split; [exact R|].
  split; [eapply run_root; exact R|]. split; [exact (run_visited _ _ _ _ _ R)|].
  assert (START : inv doc visited [EnterFragment n set] [] (mkcstate visited [] [] [])).
  { constructor; cbn [cs_visited cs_index cs_errors cs_paths].
    - now apply shape_root with (tc := tc) (ds := ds).
    - intros x i. cbn. split; [discriminate|]. now destruct i.
    - constructor.
    - intros x [].
    - intros e [].
    - intros [[_ [C A]] _]. split.
      + intros a b [FA _] H. split; [exact (C a b FA H)|intros []].
      + intros a via [FA _]. exact (A a via FA). }
  destruct (inv_run doc visited _ _ _ _ _ START R) as (P & IV).
  destruct IV as [SH IX ND VI RE CL]. split; [exact RE|]. intros UN SE ER.
  assert (P = []) by (inversion SH as [A B C| |stk0 P0 paths O A B C| |]; subst; [reflexivity|now apply opn_nil in O]). subst P.
  destruct (CL (conj (conj UN SE) ER)) as [C A]. split.
  - intros a b FA H. apply (C a b); [split; [exact FA|intros []]|exact H].
  - intros a via FA. apply A. split; [exact FA|intros []].
Qed.
Lemma visit_all : forall doc b visited, (forall c n tc ds set, In (c, EnterFrag n tc ds set) b -> In (QFrag n tc ds set) doc) ->
  (forall e, In e (out (v_step (no_fragments_cycle doc)) visited b) -> report doc e) /\
  (NoDup (fragment_names doc) -> settled doc visited -> out (v_step (no_fragments_cycle doc)) visited b = [] ->
   exists visited', settled doc visited' /\ (forall x, In x visited -> In x visited') /\ forall c n tc ds set, In (c, EnterFrag n tc ds set) b -> In n visited').
Proof.
  intros doc b. induction b as [|x b IH]; intros visited H.
  - split; [intros e []|]. intros _ SE _. exists visited. split; [exact SE|]. split; [auto|]. intros ? ? ? ? ? [].
  - assert (H' : forall c n tc ds set, In (c, EnterFrag n tc ds set) b -> In (QFrag n tc ds set) doc) by (intros c n tc ds set K; apply (H c); now right).
    assert (CASE : v_step (no_fragments_cycle doc) visited x = (visited, []) /\ (forall c n tc ds set, x <> (c, EnterFrag n tc ds set)) \/
      exists c n tc ds set, x = (c, EnterFrag n tc ds set)).
    { destruct x as [c x]. destruct x; try (left; split; [reflexivity|intros; discriminate]). right. eexists _, _, _, _, _. reflexivity. }
    rewrite out_cons. destruct CASE as [[E NE]|(c & n & tc & ds & set & ->)].
    + rewrite E. cbn [fst snd app]. destruct (IH visited H') as [I1 I2]. split; [exact I1|]. intros UN SE ER.
      destruct (I2 UN SE ER) as (v' & A & B & C). exists v'. split; [exact A|]. split; [exact B|]. intros c n tc ds set [K|K]; [now apply NE in K|]. eapply C. exact K.
    + pose proof (H c n tc ds set (or_introl eq_refl)) as I. destruct (visit_one doc n tc ds set visited I) as (s & R & RN & RV & RE & RS).
      assert (E : v_step (no_fragments_cycle doc) visited (c, EnterFrag n tc ds set) = (cs_visited s, cs_errors s)).
      { cbn [no_fragments_cycle v_step snd]. rewrite R. reflexivity. }
      rewrite E. cbn [fst snd]. destruct (IH (cs_visited s) H') as [I1 I2]. split.
      * intros e K. apply in_app_iff in K. destruct K as [K|K]; [now apply RE|now apply I1].
      * intros UN SE ER. apply app_eq_nil in ER. destruct ER as [ER1 ER2]. destruct (I2 UN (RS UN SE ER1) ER2) as (v' & A & B & C).
        exists v'. split; [exact A|]. split; [intros y Y; apply B, RV, Y|]. intros c' n' tc' ds' set' [K|K]; [injection K as <- <- <- <- <-; now apply B|]. eapply C. exact K.
Qed.
Section Rule.
  Variable sch : list definition.
  Variable doc : list qdef.
  Variable l : list call.
  Hypothesis W : walk sch doc = Some l.
  Lemma all_in : forall c n tc ds set, In (c, EnterFrag n tc ds set) l -> In (QFrag n tc ds set) doc.
  Proof. intros c n tc ds set I. apply (ev_frag _ _ _ W). now exists c. Qed.
  Lemma cycles_real : forall e, In e (errors_of (no_fragments_cycle doc) l) -> exists n via, e = FragmentCycle n via /\ chain (edge doc) n via n.
  Proof. intros e I. exact (proj1 (visit_all doc l [] all_in) e I). Qed.
  Lemma cycles_found : NoDup (fragment_names doc) -> forall n via, chain (near_edge doc) n via n -> errors_of (no_fragments_cycle doc) l <> [].
  Proof.
    intros UN n via C E. destruct (proj2 (visit_all doc l [] all_in) UN) as (v' & [_ A] & _ & B).
    - split; [intros a b []|intros a via' []].
    - exact E.
    - assert (F : exists tc ds set, In (QFrag n tc ds set) doc) by (inversion C as [x y K|x y v z K _]; subst; destruct K as (tc & ds & set & K & _); now exists tc, ds, set).
      destruct F as (tc & ds & set & F). apply (ev_frag _ _ _ W) in F. destruct F as (c & F). exact (A n via (B _ _ _ _ _ F) C).
  Qed.
  Lemma cycles_shallow : NoDup (fragment_names doc) -> shallow doc -> (errors_of (no_fragments_cycle doc) l = [] <-> forall n via, ~ chain (edge doc) n via n).
  Proof.
    intros UN SH.
    assert (NAMED : forall a via b, chain (edge doc) a via b -> In a (fragment_names doc)).
    { intros a via b C. assert (F : exists tc ds set, In (QFrag a tc ds set) doc) by (inversion C as [x y K|x y v z K _]; subst; destruct K as (tc & ds & set & K & _); now exists tc, ds, set).
      destruct F as (tc & ds & set & F). apply in_flat_map. exists (QFrag a tc ds set). split; [exact F|now left]. }
    assert (NEAR : forall a via b, chain (edge doc) a via b -> In b (fragment_names doc) -> chain (near_edge doc) a via b).
    { intros a via b C. induction C as [a b (tc & ds & set & I & K)|a b via c (tc & ds & set & I & K) C IH]; intros N.
      - apply chain_last. exists tc, ds, set. split; [exact I|]. split; [exact (SH _ _ _ _ _ I K)|exact N].
      - apply chain_more; [|now apply IH]. exists tc, ds, set. split; [exact I|]. split; [exact (SH _ _ _ _ _ I K)|]. exact (NAMED _ _ _ C). }
    split.
    - intros E n via C. apply (cycles_found UN n via); [|exact E]. apply NEAR; [exact C|exact (NAMED _ _ _ C)].
    - intros N. destruct (errors_of (no_fragments_cycle doc) l) as [|e r] eqn:E; [reflexivity|].
      destruct (cycles_real e) as (n & via & _ & C); [rewrite E; now left|]. now apply N in C.
  Qed.
End Rule.
