(** The response keys that a plan writes. *)
From Coq Require Import String List Bool Arith Lia.
From Verif Require Import StrOrd JsonModel Ast ProjModel ProjCond ProjSpec TrieModel PlanModel PlanSpec PlanCond PlanMerge PlanMatch PlanBuild PlanOperation.
Import ListNotations.
Local Open Scope string_scope.
Local Open Scope list_scope.

Section Shown.
Variable M : meta.
Variable vt : string -> bool.

Lemma tmatches_opens g T : tmatches g T = true <-> opens (Some g) T.
Proof. destruct g as [t|ts]; cbn; [rewrite String.eqb_eq; intuition congruence|apply smem_In]. Qed.

Lemma met_dec c T : met vt c T \/ ~ met vt c T.
Proof.
  induction c as [x|x|g|g|vs|a IHa b IHb|a IHa b IHb]; cbn [met]; try tauto.
  - destruct (vt x); [left; reflexivity|right; discriminate].
  - destruct (vt x); [right; discriminate|left; reflexivity].
  - destruct (opens_dec (Some g) T); tauto.
Qed.
Lemma check_met c T field v : expected c field v ->
  (met vt c T -> check vt c (inl T) field v = COk) /\
  (~ met vt c T -> check vt c (inl T) field v = ESkip \/ check vt c (inl T) field v = EParent).
Proof.
  induction c as [x|x|g|g|vs|a IHa b IHb|a IHa b IHb]; cbn [expected met check].
  - intros _. destruct (vt x); split; intros H; auto; try discriminate. exfalso. apply H. reflexivity.
  - intros _. destruct (vt x); split; intros H; auto; try discriminate. exfalso. apply H. reflexivity.
  - intros _. rewrite <- tmatches_opens. destruct (tmatches g T); split; intros H; auto; try discriminate. exfalso. apply H. reflexivity.
  - intros (n & -> & H). apply tmatches_opens in H. rewrite H. split; [auto|tauto].
  - intros H. split; [|tauto]. intros _. destruct v as [[| | | | |s| | |]|]; auto. rewrite (proj2 (smem_In s vs) H). reflexivity.
  - intros [Ha Hb]. destruct (IHa Ha) as [A1 A2]. destruct (IHb Hb) as [B1 B2].
    destruct (met_dec a T) as [D|D].
    + split; [intros _; rewrite (A1 D); reflexivity|tauto].
    + destruct (A2 D) as [E|E]; rewrite E; (split; [intros [H|H]; [tauto|exact (B1 H)]|intros H; apply B2; tauto]).
  - intros [Ha Hb]. destruct (IHa Ha) as [A1 A2]. destruct (IHb Hb) as [B1 B2]. destruct (met_dec a T) as [D|D].
    + rewrite (A1 D). split; [intros [_ H]; exact (B1 H)|intros H; apply B2; tauto].
    + split; [tauto|]. intros _. destruct (A2 D) as [E|E]; rewrite E; auto.
Qed.

Definition applied (p : plan) (T : string) : Prop := opens (p_guard p) T /\ met_opt vt (p_cond p) T.
Notation seen := (as_expected M).
Lemma status_applied p T o : seen p T o ->
  (applied p T -> field_status M vt p (inl T) o = Present) /\ (~ applied p T -> field_status M vt p (inl T) o = Absent).
Proof.
  unfold as_expected, applied, field_status. intros He.
  assert (K : (met_opt vt (p_cond p) T ->
       match p_cond p with None => Present | Some c => match check vt c (inl T) (resolve_type_name M p (get (p_key p) o) (inl T)) (get (p_key p) o) with
         | COk => Present | ESkip | EParent => Absent | EField | EEnum => Invalid | EFatal _ => Stuck end end = Present) /\
     (~ met_opt vt (p_cond p) T ->
       match p_cond p with None => Present | Some c => match check vt c (inl T) (resolve_type_name M p (get (p_key p) o) (inl T)) (get (p_key p) o) with
         | COk => Present | ESkip | EParent => Absent | EField | EEnum => Invalid | EFatal _ => Stuck end end = Absent)).
  { destruct (p_cond p) as [c|]; cbn [met_opt expected_opt] in *; [|tauto]. destruct (check_met c T _ _ He) as [A B].
    split; intros H; [rewrite (A H); reflexivity|destruct (B H) as [E|E]; rewrite E; reflexivity]. }
  destruct (p_guard p) as [g|]; cbn [opens].
  - pose proof (tmatches_opens g T) as Hg. cbn [opens] in Hg. destruct (tmatches g T).
    + split; intros H; [apply K; tauto|apply K; tauto].
    + split; intros H; [exfalso|reflexivity]. destruct H as [H _]. apply Hg in H. discriminate.
  - split; intros H; apply K; tauto.
Qed.

Lemma keys_shown X ps T o : forall kvs, unambiguous X ps -> X T -> (forall p, In p ps -> opens (p_guard p) T -> seen p T o) ->
  fields M vt ps (inl T) o kvs ->
  NoDup (map fst kvs) /\ forall k, In k (map fst kvs) <-> exists f, shows vt [(T, k, f)] ps.
Proof.
  intros kvs Hu HX Hs Hf. assert (E : exists kvs', kvs' = kvs /\ forall k, In k (map fst kvs') <-> exists p, In p ps /\ p_key p = k /\ applied p T).
  { exists kvs. split; [reflexivity|]. clear Hu. revert kvs Hf Hs. induction ps as [|p ps IH]; intros kvs Hf Hs.
    - inversion Hf; subst. cbn. intros k. split; [tauto|intros (p & [] & _)].
    - assert (Hs' : forall q, In q ps -> opens (p_guard q) T -> seen q T o) by (intros q Hq; apply Hs; right; exact Hq).
      inversion Hf as [|? ? ? ? ? Ha Hr|? ? ? ? t kvs' Hc Hn Hr]; subst; intros k.
      + rewrite (IH _ Hr Hs' k). split; [intros (q & H1 & H2); exists q; split; [right; exact H1|exact H2]|].
        intros (q & [<-|H1] & H2 & H3); [|exists q; auto]. exfalso.
        rewrite (proj1 (status_applied p T o (Hs p (or_introl eq_refl) (proj1 H3))) H3) in Ha. discriminate.
      + cbn. rewrite (IH _ Hr Hs' k). split.
        * intros [<-|(q & H1 & H2)]; [|exists q; auto]. exists p. split; [left; reflexivity|]. split; [reflexivity|].
          assert (Hne : field_status M vt p (inl T) o <> Absent) by (inversion Hc; subst; congruence).
          destruct (opens_dec (p_guard p) T) as [Ho|Ho].
          -- destruct (status_applied p T o (Hs p (or_introl eq_refl) Ho)) as [_ B].
             unfold applied. split; [exact Ho|]. destruct (p_cond p) as [c|] eqn:Ec; cbn [met_opt]; [|exact I].
             destruct (met_dec c T) as [D|D]; [exact D|]. exfalso. apply Hne, B. intros [_ H]. rewrite Ec in H. exact (D H).
          -- exfalso. apply Hne. unfold field_status. destruct (p_guard p) as [g|]; cbn [opens] in Ho; [|tauto].
             pose proof (tmatches_opens g T) as Hg. cbn [opens] in Hg. destruct (tmatches g T); [|reflexivity]. exfalso. apply Ho, Hg. reflexivity.
        * intros (q & [<-|H1] & H2 & H3); [left; exact H2|right; exists q; auto]. }
  destruct E as (? & -> & E). split.
  - clear E. revert kvs Hf Hs Hu. induction ps as [|p ps IH]; intros kvs Hf Hs Hu; [inversion Hf; subst; constructor|].
    assert (Hs' : forall q, In q ps -> opens (p_guard q) T -> seen q T o) by (intros q Hq; apply Hs; right; exact Hq).
    cbn in Hu. destruct Hu as [U1 U2].
    assert (Keys : forall kvs', fields M vt ps (inl T) o kvs' -> forall k, In k (map fst kvs') -> exists q, In q ps /\ p_key q = k /\ opens (p_guard q) T).
    { clear -HX. intros kvs' Hf. induction ps as [|q ps IH] in kvs', Hf |- *; intros k Hk; [inversion Hf; subst; destruct Hk|].
      inversion Hf as [|? ? ? ? ? Ha Hr|? ? ? ? t kvs'' Hc Hn Hr]; subst.
      - destruct (IH _ Hr k Hk) as (x & H1 & H2). exists x. split; [right; exact H1|exact H2].
      - destruct Hk as [<-|Hk]; [|destruct (IH _ Hr k Hk) as (x & H1 & H2); exists x; split; [right; exact H1|exact H2]].
        exists q. split; [left; reflexivity|]. split; [reflexivity|].
        assert (Hne : field_status M vt q (inl T) o <> Absent) by (inversion Hc; subst; congruence).
        destruct (opens_dec (p_guard q) T) as [Ho|Ho]; [exact Ho|]. exfalso. apply Hne. unfold field_status. destruct (p_guard q) as [g|]; cbn [opens] in Ho; [|tauto].
        pose proof (tmatches_opens g T) as Hg. cbn [opens] in Hg. destruct (tmatches g T); [|reflexivity]. exfalso. apply Ho, Hg. reflexivity. }
    inversion Hf as [|? ? ? ? ? Ha Hr|? ? ? ? t kvs' Hc Hn Hr]; subst; [exact (IH _ Hr Hs' U2)|].
    cbn. constructor; [|exact (IH _ Hr Hs' U2)]. intros Hin. destruct (Keys _ Hr _ Hin) as (q & Hq & Hk & Ho).
    apply (U1 q T Hq Hk HX); [|exact Ho].
    assert (Hne : field_status M vt p (inl T) o <> Absent) by (inversion Hc; subst; congruence).
    destruct (opens_dec (p_guard p) T) as [Ho'|Ho']; [exact Ho'|]. exfalso. apply Hne. unfold field_status. destruct (p_guard p) as [g|]; cbn [opens] in Ho'; [|tauto].
    pose proof (tmatches_opens g T) as Hg. cbn [opens] in Hg. destruct (tmatches g T); [|reflexivity]. exfalso. apply Ho', Hg. reflexivity.
  - intros k. rewrite (E k). cbn [shows]. unfold applied. split.
    + intros (p & H1 & H2 & H3 & H4). exists (p_field p), p. tauto.
    + intros (f & p & H1 & H2 & H3 & H4 & H5 & _). exists p. tauto.
Qed.

Lemma unambiguous_same X ps p q T : unambiguous X ps -> X T -> In p ps -> In q ps -> p_key p = p_key q ->
  opens (p_guard p) T -> opens (p_guard q) T -> p = q.
Proof.
  induction ps as [|x ps IH]; intros Hu HX Hp Hq Hk H1 H2; [destruct Hp|]. destruct Hu as [U1 U2]. destruct Hp as [<-|Hp], Hq as [<-|Hq]; auto.
  - exfalso. exact (U1 q T Hq (eq_sym Hk) HX H1 H2).
  - exfalso. exact (U1 p T Hp Hk HX H2 H1).
Qed.

Lemma shows_below null path : forall X Y ps l s, unambiguous X ps -> Forall (fun p => tidy M null p X) ps ->
  arrives M X path Y -> below vt path ps l ->
  (shows vt (path ++ [s]) ps <-> shows vt [s] l) /\ unambiguous Y l.
Proof.
  induction path as [|[[T k] f] path IH]; intros X Y ps l s Hu Ht Ha Hb; cbn [arrives below app] in *; [subst; tauto|].
  destruct Ha as (HX & Hn & o & Ho & Ha). destruct Hb as (p & Hp & Hk & Hf & Hg & Hc & Hb).
  pose proof (proj1 (Forall_forall _ _) Ht p Hp) as Htp.
  assert (K : unambiguous (objs M o) (kids p) /\ Forall (fun q => tidy M null q (objs M o)) (kids p)).
  { destruct p as [f0 k0 ty nl g c v]. cbn in Hk, Hf, Hg, Hc. subst f0 k0. cbn [tidy] in Htp. destruct (Htp T HX Hg) as (_ & _ & [(E & _)|(o' & Eo & Hv)]); [congruence|].
    rewrite Ho in Eo. injection Eo as <-. unfold kids. cbn [p_val]. destruct v as [[kl|]|]; [|split; [exact I|constructor]|destruct Hv].
    destruct Hv as [V1 V2]. split; [exact V1|]. apply each_Forall. exact V2. }
  destruct (IH (objs M o) Y (kids p) l s (proj1 K) (proj2 K) Ha Hb) as [I1 I2]. split; [|exact I2].
  rewrite <- I1. cbn [shows]. split.
  - intros (q & Hq & Hkq & Hfq & Hgq & Hcq & Hs). assert (E : p = q) by (apply (unambiguous_same X ps p q T Hu HX); auto; congruence). subst q. exact Hs.
  - intros Hs. exists p. tauto.
Qed.
End Shown.

Section Response.
Variable M : meta.
Variable order : sset -> list string.
Hypothesis order_ok : forall s x, In x (order s) <-> In x s.
Hypothesis Sok : schema_ok M.

Lemma arrives_typed path : forall X Y T k f, arrives M X path Y -> Y T -> typed M X (path ++ [(T, k, f)]).
Proof.
  induction path as [|[[T0 k0] f0] path IH]; intros X Y T k f; cbn [arrives app typed].
  - intros -> H. auto.
  - intros (HX & Hn & o & Ho & Ha) HY. split; [exact HX|]. right. split; [exact Hn|]. exists o. split; [exact Ho|]. exact (IH _ _ _ _ _ Ha HY).
Qed.

Lemma response_keys root sels ps vt path l Y T o kvs :
  all (fun s => simple M s root (objs M root)) sels ->
  coherent (fun path => typed M (objs M root) path /\ mentions M path sels) ->
  from_operation M order root sels = BOk ps -> below vt path ps l -> arrives M (objs M root) path Y -> Y T ->
  (forall p, In p l -> opens (p_guard p) T -> as_expected M p T o) -> fields M vt l (inl T) o kvs ->
  NoDup (map fst kvs) /\ forall k, In k (map fst kvs) <-> exists f, selects M vt (path ++ [(T, k, f)]) sels.
Proof.
  intros Hs Hc Hp Hb Ha HY He Hf.
  destruct (plan_correct M order order_ok Sok (fun _ _ _ => True) (fun _ => I) (fun _ _ _ _ _ _ _ => I) root sels Hs Hc) as (ps' & E & H1 & H2 & H3).
  rewrite Hp in E. injection E as <-.
  destruct (shows_below M vt (fun _ _ _ => True) path _ Y ps l ("", "", "") H2 H3 Ha Hb) as [_ U].
  destruct (keys_shown M vt Y l T o kvs U HY He Hf) as [K1 K2]. split; [exact K1|]. intros k. rewrite K2. split; intros (f & H); exists f.
  - apply H1; [exact (arrives_typed path _ _ _ _ _ Ha HY)|]. apply (shows_below M vt (fun _ _ _ => True) path _ Y ps l _ H2 H3 Ha Hb). exact H.
  - apply (shows_below M vt (fun _ _ _ => True) path _ Y ps l _ H2 H3 Ha Hb). apply H1; [exact (arrives_typed path _ _ _ _ _ Ha HY)|exact H].
Qed.
End Response.
