(** Two selections of one response key are merged into one that shows what either shows. *)
From Coq Require Import String List Bool Arith Lia.
From Verif Require Import StrOrd JsonModel Ast ProjModel ProjCond TrieModel PlanModel PlanSpec PlanCond PlanMerge.
Import ListNotations.
Local Open Scope string_scope.
Local Open Scope list_scope.

Section Match.
Variable M : meta.
Variable order : sset -> list string.
Hypothesis Sok : schema_ok M.
Variable Nl : string -> string -> nshape -> Prop.
Notation good := (good M order Nl).
Notation objs := (objs M).
Notation typed := (typed M).
Notation output := (output M).

Lemma met_merged vt g a b T : met_opt vt (merge_conditions g a g b) T <-> met_opt vt a T \/ met_opt vt b T.
Proof. unfold merge_conditions. rewrite guard_eqb_same. apply met_or_opt. Qed.

Definition sub_ok o C f k T c v : Prop :=
  match v with
  | SNull => False
  | SData None => forall T', ~ objs o T'
  | SData (Some l) =>
      kids_good M order Nl o (objs o) (after C (T, k, f)) l /\
      (forall vt path, path <> [] -> typed (objs o) path -> shows vt path l -> met_opt vt c T)
  end.
Definition kids_of (v : source plan) : list plan := match v with SData (Some l) => l | _ => [] end.

Lemma kids_good_forall o X C l : kids_good M order Nl o X C l -> Forall (fun q => good q o X C) l.
Proof. intros [H _]. eapply Forall_impl; [|exact H]. cbn. tauto. Qed.

(** merging the nested selections, when both are known to be about the same field *)
Lemma merge_lists mm o X C old new fs l :
  merge_ok M order Nl mm -> coherent C -> within M X o ->
  merge_plans mm (group old) new o = BOk fs -> resolve M mm fs o = BOk l ->
  kids_good M order Nl o X C old -> kids_good M order Nl o X C new ->
  kids_good M order Nl o X C l /\
  forall vt path, path <> [] -> typed X path -> (shows vt path l <-> shows vt path old \/ shows vt path new).
Proof.
  intros Hmm HC HX E1 E2 Ho Hn.
  destruct (group_keyed Nl old) as [K1 K2].
  destruct (group_variants M order Nl old o X C (kids_good_forall _ _ _ _ Ho) (proj2 Ho)) as [V1 V2].
  destruct (merge_plans_ok M order Nl mm Hmm new (group old) o fs E1 K1) as (J1 & _ & J3 & J4).
  destruct (J4 X C HC V1 (kids_good_forall _ _ _ _ Hn)) as [W1 W2].
  pose proof (merge_plans_nodup Nl mm new (group old) o fs E1 K2) as Nd.
  destruct (resolve_ok M order Sok Nl mm Hmm fs o l E2 J1 Nd) as (_ & R2 & _ & R4).
  destruct (R4 X C HX HC W1) as (G1 & G2 & G3).
  assert (Sh : Forall (fun p => shaped M (p_guard p)) l).
  { apply R2.
    - apply (J3 (fun g _ => shaped M g)).
      + unfold tracked. rewrite Forall_forall. intros q Hq. apply V2 in Hq. destruct Ho as [Ho _]. rewrite Forall_forall in Ho. exact (proj1 (Ho q Hq)).
      + unfold tracked. destruct Hn as [Hn _]. eapply Forall_impl; [|exact Hn]. cbn. tauto.
    - intros t Ht. left. exact (proj1 Ht). }
  split.
  - split; [|exact G2]. rewrite Forall_forall in *. intros q Hq. split; auto.
  - intros vt path Hne Ht. rewrite (G3 vt path Hne Ht), (W2 vt path Hne Ht), (shows_ext vt path _ _ V2). reflexivity.
Qed.

Lemma sub_ok_weaken o C f k T c c' v :
  (forall vt, met_opt vt c T -> met_opt vt c' T) -> sub_ok o C f k T c v -> sub_ok o C f k T c' v.
Proof. intros H. destruct v as [[l|]|]; cbn; try tauto. intros [H1 H2]. split; [exact H1|]. intros. apply H. eapply H2; eassumption. Qed.
Lemma empty_untyped o path : path <> [] -> (forall T, ~ objs o T) -> ~ typed (objs o) path.
Proof. destruct path as [|[[T k] f] path]; [tauto|]. intros _ H [H1 _]. exact (H T H1). Qed.

Lemma merge_matching_ok fuel : merge_ok M order Nl (merge_matching M order fuel).
Proof.
  induction fuel as [|fuel IH]; intros e n P r E Hk Hg; cbn [merge_matching] in E; [discriminate|].
  set (c := merge_conditions (p_guard e) (p_cond e) (p_guard e) (p_cond n)) in *.
  set (child := match field_output M order P (p_guard e) (p_field e) with Some o => o | None => P end) in *.
  match type of E with bbind ?x _ = _ => destruct x as [v|] eqn:Ev end; cbn [bbind] in E; [|discriminate].
  injection E as <-. rewrite p_key_with, p_guard_with, p_field_with.
  split; [reflexivity|]. split; [reflexivity|]. split; [reflexivity|]. intros X C HC Ge Gn.
  rewrite good_unfold in Ge, Gn.
  (* one type at a time *)
  assert (At : forall T, X T -> opens (p_guard e) T ->
    p_field e = p_field n /\ C [(T, p_key e, p_field e)] /\ (p_typename e = String.eqb (p_field e) "__typename" /\ Nl T (p_field e) (p_null e)) /\
    (p_field e = "__typename" /\ v = SData None \/
     p_field e <> "__typename" /\ exists o, output T (p_field e) = Some o /\ field_output M order P (p_guard e) (p_field e) = Some o /\
       sub_ok o C (p_field e) (p_key e) T c v /\
       sub_ok o C (p_field e) (p_key e) T (p_cond e) (p_val e) /\ sub_ok o C (p_field e) (p_key e) T (p_cond n) (p_val n) /\
       forall vt path, path <> [] -> typed (objs o) path ->
         (shows vt path (kids_of v) <-> shows vt path (kids e) \/ shows vt path (kids n)))).
  { intros T HX Ho. destruct (Ge T HX Ho) as (C1 & T1 & D1). rewrite Hg in Ho. destruct (Gn T HX Ho) as (C2 & T2 & D2). rewrite <- Hg in *.
    rewrite <- Hk in *.
    assert (Ef : p_field e = p_field n) by (exact (HC [] T (p_key e) _ _ C1 C2)).
    split; [exact Ef|]. split; [exact C1|]. split; [exact T1|]. rewrite <- Ef in *.
    destruct D1 as [[D1 V1]|(N1 & o & O1 & F1 & S1)].
    - destruct D2 as [[_ V2]|(N2 & _)]; [|contradiction]. left. split; [exact D1|]. rewrite V1, V2 in Ev. injection Ev as <-. reflexivity.
    - destruct D2 as [[D2 _]|(_ & o' & O2 & F2 & S2)]; [contradiction|]. rewrite O1 in O2. injection O2 as <-.
      right. split; [exact N1|]. exists o. split; [exact O1|]. split; [exact F1|].
      assert (Hc : child = o) by (unfold child; rewrite F1; reflexivity).
      assert (M1 : forall vt, met_opt vt (p_cond e) T -> met_opt vt c T) by (intros vt H; apply met_merged; left; exact H).
      assert (M2 : forall vt, met_opt vt (p_cond n) T -> met_opt vt c T) by (intros vt H; apply met_merged; right; exact H).
      destruct (p_val e) as [[old|]|] eqn:Ve; [| |destruct S1]; (destruct (p_val n) as [[new|]|] eqn:Vn; [| |destruct S2]).
      + rewrite Hc in Ev.
        destruct (merge_plans (merge_matching M order fuel) (group old) new o) as [fs|] eqn:Em; cbn [bbind] in Ev; [|discriminate].
        destruct (resolve M (merge_matching M order fuel) fs o) as [l|] eqn:Er; cbn [bbind] in Ev; [|discriminate]. injection Ev as <-.
        destruct (merge_lists _ o (objs o) (after C (T, p_key e, p_field e)) old new fs l IH (coherent_after _ _ HC) (objs_within M o) Em Er (proj1 S1) (proj1 S2)) as [R1 R2].
        split; [|split; [exact S1|split; [exact S2|]]].
        * split; [exact R1|]. intros vt path Hne Ht Hs. apply (R2 vt path Hne Ht) in Hs. destruct Hs as [Hs|Hs].
          -- apply M1. exact (proj2 S1 vt path Hne Ht Hs).
          -- apply M2. exact (proj2 S2 vt path Hne Ht Hs).
        * intros vt path Hne Ht. rewrite (kids_val e old Ve), (kids_val n new Vn). apply R2; assumption.
      + injection Ev as <-. split; [exact (sub_ok_weaken o C _ _ T _ c (SData (Some old)) M1 S1)|]. split; [exact S1|]. split; [exact S2|].
        intros vt path Hne Ht. exfalso. exact (empty_untyped o path Hne S2 Ht).
      + injection Ev as <-. split; [exact (sub_ok_weaken o C _ _ T _ c (SData (Some new)) M2 S2)|]. split; [exact S1|]. split; [exact S2|].
        intros vt path Hne Ht. exfalso. exact (empty_untyped o path Hne S1 Ht).
      + injection Ev as <-. split; [exact S1|]. split; [exact S1|]. split; [exact S2|].
        intros vt path Hne Ht. exfalso. exact (empty_untyped o path Hne S1 Ht). }
  split.
  - apply good_unfold. rewrite p_key_with, p_guard_with, p_field_with, p_typename_with, p_null_with, p_val_with, p_cond_with.
    intros T HX Ho. destruct (At T HX Ho) as (_ & A1 & A2 & A3). split; [exact A1|]. split; [exact A2|].
    destruct A3 as [A3|(N & o & O1 & F1 & S1 & _)]; [left; exact A3|]. right. split; [exact N|]. exists o. split; [exact O1|]. split; [exact F1|].
    exact S1.
  - intros vt path Hne Ht. destruct path as [|[[T k] f] path]; [congruence|]. destruct Ht as [HX Ht].
    rewrite !shows_one, p_key_with, p_guard_with, p_field_with, p_cond_with. rewrite <- Hg, <- Hk.
    destruct (opens_dec (p_guard e) T) as [Ho|Ho]; [|tauto].
    destruct (At T HX Ho) as (Ef & _ & _ & A3). rewrite <- Ef. unfold c. rewrite met_merged.
    assert (Ek : kids (with_value (with_cond e (merge_conditions (p_guard e) (p_cond e) (p_guard e) (p_cond n))) v) = kids_of v)
      by (unfold kids; rewrite p_val_with; reflexivity). rewrite Ek.
    destruct Ht as [-> |(Hn & o & Ho' & Ht)]; [cbn [shows]; tauto|].
    destruct path as [|s path]; [cbn [shows]; tauto|]. set (path' := s :: path) in *.
    assert (Hne' : path' <> []) by discriminate.
    destruct (String.eqb_spec (p_field e) f) as [Eq|Nq]; [|tauto]. subst f.
    destruct A3 as [[A3 _]|(N & o' & O1 & F1 & S1 & S2 & S3 & Sh)]; [contradiction|].
    rewrite Ho' in O1. injection O1 as <-. rewrite (Sh vt path' Hne' Ht).
    assert (I1 : shows vt path' (kids e) -> met_opt vt (p_cond e) T).
    { unfold kids. destruct (p_val e) as [[l|]|]; [|intros H; exfalso; exact (shows_nil vt path' Hne' H)|destruct S2].
      intros H. exact (proj2 S2 vt path' Hne' Ht H). }
    assert (I2 : shows vt path' (kids n) -> met_opt vt (p_cond n) T).
    { unfold kids. destruct (p_val n) as [[l|]|]; [|intros H; exfalso; exact (shows_nil vt path' Hne' H)|destruct S3].
      intros H. exact (proj2 S3 vt path' Hne' Ht H). }
    tauto.
Qed.

(** *** Merging never runs out of fuel *)
Fixpoint depth (p : plan) : nat :=
  match p with
  | Plan _ _ _ _ _ _ v => S (match v with SData (Some l) => fold_right (fun x n => Nat.max (depth x) n) O l | _ => O end)
  end.
Definition deep (n : nat) (l : list plan) : Prop := Forall (fun p => depth p <= n) l.
Lemma deep_fold n l : fold_right (fun x n => Nat.max (depth x) n) O l <= n <-> deep n l.
Proof.
  unfold deep. induction l as [|x l IH]; cbn [fold_right]; [split; [constructor|lia]|]. split.
  - intros H. constructor; [lia|]. apply IH. lia.
  - intros H. inversion H; subst. apply IH in H3. lia.
Qed.
Lemma depth_kids p n : depth p <= S n <-> deep n (kids p).
Proof.
  destruct p as [f k ty nl g c [[l|]|]]; cbn [depth kids p_val].
  - rewrite <- deep_fold. lia.
  - split; [constructor|lia].
  - split; [constructor|lia].
Qed.
Lemma depth_reguard g p : depth (reguard g p) = depth p.
Proof. destruct p; reflexivity. Qed.

Definition total_ok (mm : plan -> plan -> string -> bres plan) (n : nat) : Prop :=
  forall e x P, depth e <= n -> depth x <= n -> exists r, mm e x P = BOk r /\ depth r <= n.
Section Total.
Variable mm : plan -> plan -> string -> bres plan.
Variable n : nat.
Hypothesis Hmm : total_ok mm n.
Lemma merge_variant_total vs : forall p P, deep n vs -> depth p <= n -> exists vs', merge_variant mm vs p P = BOk vs' /\ deep n vs'.
Proof.
  induction vs as [|v vs IH]; intros p P Hv Hp; cbn [merge_variant].
  - exists [p]. split; [reflexivity|constructor; [exact Hp|constructor]].
  - inversion Hv; subst. destruct (guard_eqb _ _).
    + destruct (Hmm v p P) as (r & -> & Hr); [assumption|assumption|]. exists (r :: vs). split; [reflexivity|constructor; assumption].
    + destruct (IH p P H2 Hp) as (r & -> & Hr). exists (v :: r). split; [reflexivity|constructor; assumption].
Qed.
Lemma flat_app_deep k vs fs : deep n (flat ((k, vs) :: fs)) <-> deep n vs /\ deep n (flat fs).
Proof. unfold flat, deep. cbn [map concat snd]. apply Forall_app. Qed.
Lemma merge_plan_total fs : forall p P, deep n (flat fs) -> depth p <= n -> exists fs', merge_plan mm fs p P = BOk fs' /\ deep n (flat fs').
Proof.
  induction fs as [|[k vs] fs IH]; intros p P Hf Hp; cbn [merge_plan].
  - eexists. split; [reflexivity|]. constructor; [exact Hp|constructor].
  - apply flat_app_deep in Hf. destruct Hf as [H1 H2]. destruct (String.eqb (p_key p) k).
    + destruct (merge_variant_total vs p P H1 Hp) as (r & -> & Hr). eexists. split; [reflexivity|]. apply flat_app_deep. auto.
    + destruct (IH p P H2 Hp) as (r & -> & Hr). eexists. split; [reflexivity|]. apply flat_app_deep. auto.
Qed.
Lemma merge_plans_total ps : forall fs P, deep n (flat fs) -> deep n ps -> exists fs', merge_plans mm fs ps P = BOk fs' /\ deep n (flat fs').
Proof.
  induction ps as [|p ps IH]; intros fs P Hf Hp; cbn [merge_plans].
  - exists fs. auto.
  - inversion Hp; subst. destruct (merge_plan_total fs p P Hf H1) as (r & -> & Hr). cbn [bbind]. apply IH; assumption.
Qed.
Lemma merge_for_type_total vs : forall acc t P, deep n vs -> deep n (opt_list acc) ->
  exists m, merge_for_type mm acc vs t P = BOk m /\ deep n (opt_list m).
Proof.
  induction vs as [|v vs IH]; intros acc t P Hv Ha; cbn [merge_for_type].
  - exists acc. auto.
  - inversion Hv; subst. destruct (match p_guard v with None => true | Some g => tmatches g t end); [|apply IH; assumption].
    destruct acc as [e|].
    + inversion Ha; subst. destruct (Hmm e (reguard (Some (TExact t)) v) P) as (r & -> & Hr); [assumption|rewrite depth_reguard; assumption|].
      cbn [bbind]. apply IH; [assumption|]. constructor; [exact Hr|constructor].
    + apply IH; [assumption|]. constructor; [rewrite depth_reguard; assumption|constructor].
Qed.
Lemma for_types_total ts : forall vs P, deep n vs -> exists l, for_types mm vs ts P = BOk l /\ deep n l.
Proof.
  induction ts as [|t ts IH]; intros vs P Hv; cbn [for_types].
  - exists []. split; [reflexivity|constructor].
  - destruct (merge_for_type_total vs None t P Hv) as (m & -> & Hm); [constructor|]. cbn [bbind].
    destruct (IH vs P Hv) as (r & -> & Hr). cbn [bbind]. destruct m as [p|]; eexists; (split; [reflexivity|]); [|exact Hr].
    inversion Hm; subst. constructor; assumption.
Qed.
Lemma resolve_total fs : forall P, deep n (flat fs) -> exists l, resolve M mm fs P = BOk l /\ deep n l.
Proof.
  induction fs as [|[k vs] fs IH]; intros P Hf; cbn [resolve].
  - exists []. split; [reflexivity|constructor].
  - apply flat_app_deep in Hf. destruct Hf as [H1 H2].
    assert (A : exists a, (if exclusive vs then BOk vs else for_types mm vs (concrete M P) P) = BOk a /\ deep n a).
    { destruct (exclusive vs); [exists vs; auto|]. apply for_types_total. exact H1. }
    destruct A as (a & -> & Ha). cbn [bbind]. destruct (IH P H2) as (b & -> & Hb). cbn [bbind]. eexists. split; [reflexivity|].
    apply Forall_app. split; assumption.
Qed.
End Total.
Lemma push_deep n fs p : deep n (flat fs) -> depth p <= n -> deep n (flat (push fs p)).
Proof.
  induction fs as [|[k vs] fs IH]; intros Hf Hp; cbn [push].
  - constructor; [exact Hp|constructor].
  - apply flat_app_deep in Hf. destruct Hf as [H1 H2]. destruct (String.eqb (p_key p) k); apply flat_app_deep; split; auto.
    apply Forall_app. split; [exact H1|]. constructor; [exact Hp|constructor].
Qed.
Lemma group_deep n l : deep n l -> deep n (flat (group l)).
Proof.
  unfold group. assert (G : forall l fs, deep n l -> deep n (flat fs) -> deep n (flat (fold_left push l fs))).
  { clear l. induction l as [|p l IH]; intros fs Hl Hf; [exact Hf|]. inversion Hl; subst. cbn [fold_left]. apply IH; [assumption|]. apply push_deep; assumption. }
  intros H. apply G; [exact H|constructor].
Qed.
Lemma merge_matching_total fuel : forall d, d <= fuel -> total_ok (merge_matching M order fuel) d.
Proof.
  induction fuel as [|fuel IH]; intros d Hd e x P He Hx.
  - destruct e; cbn in He; lia.
  - destruct d as [|d]; [destruct e; cbn in He; lia|]. assert (Hd' : d <= fuel) by lia. specialize (IH d Hd').
    cbn [merge_matching].
    set (child := match field_output M order P (p_guard e) (p_field e) with Some o => o | None => P end).
    assert (A : exists v, (match p_val e, p_val x with
             | SData old, SData new =>
                 match new, old with
                 | None, _ => BOk (SData old)
                 | Some new, None => BOk (SData (Some new))
                 | Some new, Some old =>
                     bbind (merge_plans (merge_matching M order fuel) (group old) new child) (fun fs =>
                     bbind (resolve M (merge_matching M order fuel) fs child) (fun l => BOk (SData (Some l))))
                 end
             | _, _ => BOk SNull
             end) = BOk v /\ deep d (kids_of v)).
    { apply depth_kids in He. apply depth_kids in Hx. unfold kids in He, Hx.
      destruct (p_val e) as [[old|]|], (p_val x) as [[new|]|]; try (eexists; split; [reflexivity|]; cbn [kids_of]; try assumption; constructor).
      destruct (merge_plans_total _ d IH new (group old) child (group_deep d old He) Hx) as (fs & -> & Hf). cbn [bbind].
      destruct (resolve_total _ d IH fs child Hf) as (l & -> & Hl). cbn [bbind]. eexists. split; [reflexivity|exact Hl]. }
    destruct A as (v & -> & Hv). cbn [bbind]. eexists. split; [reflexivity|]. apply depth_kids. unfold kids. rewrite p_val_with. exact Hv.
Qed.
End Match.
