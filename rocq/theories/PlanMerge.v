(** Merging selections into a response plan. *)
From Coq Require Import String List Bool Arith Lia.
From Verif Require Import StrOrd JsonModel Ast ProjModel ProjCond TrieModel PlanModel PlanSpec PlanCond.
Import ListNotations.
Local Open Scope string_scope.
Local Open Scope list_scope.

Section PlanInd.
  Variable Q : plan -> Prop.
  Hypothesis H : forall f k ty nl g c v, (forall l, v = SData (Some l) -> Forall Q l) -> Q (Plan f k ty nl g c v).
  Fixpoint plan_nested (p : plan) : Q p :=
    match p with
    | Plan f k ty nl g c v =>
        H f k ty nl g c v
          (match v as v0 return (forall l, v0 = SData (Some l) -> Forall Q l) with
           | SData (Some l0) => fun l E =>
               match E in (_ = s) return (match s with SData (Some l) => Forall Q l | _ => True end) with
               | eq_refl => (fix each (l : list plan) : Forall Q l :=
                   match l with [] => Forall_nil Q | x :: l' => Forall_cons x (plan_nested x) (each l') end) l0
               end
           | SData None => fun l E => match E in (_ = s) return (match s with SData (Some l) => Forall Q l | _ => True end) with eq_refl => I end
           | SNull => fun l E => match E in (_ = s) return (match s with SData (Some l) => Forall Q l | _ => True end) with eq_refl => I end
           end)
    end.
End PlanInd.

(** *** Shown paths *)
Lemma shows_app vt path a b : path <> [] -> (shows vt path (a ++ b) <-> shows vt path a \/ shows vt path b).
Proof.
  destruct path as [|[[T k] f] path]; [tauto|]. intros _. cbn [shows]. split.
  - intros (p & Hin & H). apply in_app_or in Hin. destruct Hin; [left|right]; exists p; auto.
  - intros [(p & Hin & H)|(p & Hin & H)]; exists p; (split; [apply in_or_app; auto|exact H]).
Qed.
Lemma shows_cons vt path p a : path <> [] -> (shows vt path (p :: a) <-> shows vt path [p] \/ shows vt path a).
Proof. intros H. apply (shows_app vt path [p] a H). Qed.
Lemma shows_ext vt path a b : (forall p, In p a <-> In p b) -> (shows vt path a <-> shows vt path b).
Proof.
  destruct path as [|[[T k] f] path]; [tauto|]. intros E. cbn [shows]. split; intros (p & Hin & H); exists p; (split; [apply E; exact Hin|exact H]).
Qed.
Lemma shows_nil vt path : path <> [] -> ~ shows vt path [].
Proof. destruct path as [|[[T k] f] path]; [tauto|]. intros _ (p & [] & _). Qed.
Lemma shows_one vt T k f path p :
  shows vt ((T, k, f) :: path) [p] <->
  p_key p = k /\ p_field p = f /\ opens (p_guard p) T /\ met_opt vt (p_cond p) T /\ shows vt path (kids p).
Proof.
  cbn [shows]. split; [intros (q & [<-|[]] & H); exact H|]. intros H. exists p. split; [left; reflexivity|exact H].
Qed.

Section Merge.
Variable M : meta.
Variable order : sset -> list string.
Hypothesis order_ok : forall s x, In x (order s) <-> In x s.
Hypothesis Sok : schema_ok M.
Notation objs := (objs M).
Notation typed := (typed M).
Notation output := (output M).
Notation concrete := (concrete M).
(** what is known of the nullability of a selection *)
Variable Nl : string -> string -> nshape -> Prop.

Lemma output_name_eq f t : output_name M f t = output t f.
Proof. unfold output_name, PlanSpec.output, field_info. destruct (m_fields M t) as [fs|]; [|reflexivity]. destruct (fs f) as [[o n]|]; reflexivity. Qed.

(** *** The invariant *)
Definition every (Q : plan -> Prop) : list plan -> Prop :=
  fix every l := match l with [] => True | x :: l' => Q x /\ every l' end.
Lemma every_Forall Q l : every Q l <-> Forall Q l.
Proof.
  induction l as [|x l IH]; cbn; [split; auto|]. rewrite IH. split; [intros [? ?]; auto|intros H; inversion H; auto].
Qed.
(** the shapes guards have once a selection set is complete *)
Definition shaped (g : option tcond) : Prop :=
  match g with
  | None => True
  | Some (TExact t) => m_object M t = true \/ m_scalar M t = true
  | Some (TOneOf ts) => exists t, ts = m_possible M t
  end.
Fixpoint apart (X : string -> Prop) (ps : list plan) : Prop :=
  match ps with
  | [] => True
  | p :: ps' =>
      (forall q, In q ps' -> p_key q = p_key p ->
         p_guard q <> p_guard p /\ forall T, X T -> opens (p_guard p) T -> opens (p_guard q) T -> False) /\
      apart X ps'
  end.
Definition after (C : list step -> Prop) (s : step) : list step -> Prop := fun path => C (s :: path).
Fixpoint good (p : plan) (P : string) (X : string -> Prop) (C : list step -> Prop) {struct p} : Prop :=
  match p with
  | Plan f k ty nl g c v =>
      forall T, X T -> opens g T ->
        C [(T, k, f)] /\ (ty = String.eqb f "__typename" /\ Nl T f nl) /\
        (f = "__typename" /\ v = SData None \/
         f <> "__typename" /\ exists o, output T f = Some o /\ field_output M order P g f = Some o /\
           match v with
           | SNull => False
           | SData None => forall T', ~ objs o T'
           | SData (Some l) =>
               every (fun q => shaped (p_guard q) /\ good q o (objs o) (after C (T, k, f))) l /\ apart (objs o) l /\
               (forall vt path, path <> [] -> typed (objs o) path -> shows vt path l -> met_opt vt c T)
           end)
  end.
Definition kids_good o X C l :=
  Forall (fun q => shaped (p_guard q) /\ good q o X C) l /\ apart X l.
Lemma good_unfold p P X C :
  good p P X C <->
  forall T, X T -> opens (p_guard p) T ->
    C [(T, p_key p, p_field p)] /\ (p_typename p = String.eqb (p_field p) "__typename" /\ Nl T (p_field p) (p_null p)) /\
    (p_field p = "__typename" /\ p_val p = SData None \/
     p_field p <> "__typename" /\ exists o, output T (p_field p) = Some o /\ field_output M order P (p_guard p) (p_field p) = Some o /\
       match p_val p with
       | SNull => False
       | SData None => forall T', ~ objs o T'
       | SData (Some l) =>
           kids_good o (objs o) (after C (T, p_key p, p_field p)) l /\
           (forall vt path, path <> [] -> typed (objs o) path -> shows vt path l -> met_opt vt (p_cond p) T)
       end).
Proof.
  destruct p as [f k ty nl g c v]. cbn [good p_guard p_key p_field p_typename p_null p_val p_cond].
  unfold kids_good.
  split; intros H T HX Hg; specialize (H T HX Hg); destruct H as (HC & Ht & H); split; [exact HC| |exact HC|];
    (split; [exact Ht|]); (destruct H as [H|(Hn & o & Ho & Hf & H)]; [left; exact H|right; split; [exact Hn|]; exists o; split; [exact Ho|]; split; [exact Hf|]]);
    (destruct v as [[l|]|]; [|exact H|exact H]).
  - destruct H as (H1 & H2 & H3). apply every_Forall in H1. tauto.
  - destruct H as ((H1 & H2) & H3). apply every_Forall in H1. tauto.
Qed.
Lemma good_narrow p P (X Y : string -> Prop) C : (forall T, Y T -> X T) -> good p P X C -> good p P Y C.
Proof. intros H G. apply good_unfold. intros T HY Hg. exact (proj1 (good_unfold p P X C) G T (H T HY) Hg). Qed.

Lemma coherent_after C s : coherent C -> coherent (after C s).
Proof. intros H path T k f f' H1 H2. exact (H (s :: path) T k f f' H1 H2). Qed.

(** *** Variants *)
Definition flat (fs : variants) : list plan := concat (map snd fs).
Definition group_ok (P : string) X C (kv : string * list plan) : Prop :=
  Forall (fun p => p_key p = fst kv /\ good p P X C) (snd kv) /\ NoDup (map p_guard (snd kv)) /\ snd kv <> [].
Definition variants_ok P X C (fs : variants) : Prop :=
  NoDup (map fst fs) /\ Forall (group_ok P X C) fs.
Lemma flat_cons kv fs : flat (kv :: fs) = snd kv ++ flat fs.
Proof. reflexivity. Qed.

(** the guard and field of a merged selection are those of the first one *)
Definition tracked (Q : option tcond -> string -> Prop) (l : list plan) : Prop := Forall (fun p => Q (p_guard p) (p_field p)) l.

Section WithMerge.
Variable mm : plan -> plan -> string -> bres plan.
Definition merge_ok : Prop := forall e n P r, mm e n P = BOk r ->
  p_key e = p_key n -> p_guard e = p_guard n ->
  p_key r = p_key e /\ p_guard r = p_guard e /\ p_field r = p_field e /\
  forall X C, coherent C -> good e P X C -> good n P X C ->
    good r P X C /\
    forall vt path, path <> [] -> typed X path -> (shows vt path [r] <-> shows vt path [e] \/ shows vt path [n]).
Hypothesis Hmm : merge_ok.

Lemma merge_variant_ok vs : forall p P vs', merge_variant mm vs p P = BOk vs' ->
  Forall (fun v => p_key v = p_key p) vs ->
  Forall (fun v => p_key v = p_key p) vs' /\ vs' <> [] /\
  (NoDup (map p_guard vs) -> NoDup (map p_guard vs')) /\
  (forall g, In g (map p_guard vs') -> In g (map p_guard vs) \/ g = p_guard p) /\
  (forall Q : option tcond -> string -> Prop, tracked Q vs -> Q (p_guard p) (p_field p) -> tracked Q vs') /\
  forall X C, coherent C -> Forall (fun v => good v P X C) vs -> good p P X C ->
    Forall (fun v => good v P X C) vs' /\
    forall vt path, path <> [] -> typed X path -> (shows vt path vs' <-> shows vt path vs \/ shows vt path [p]).
Proof.
  induction vs as [|v vs IH]; intros p P vs' E Hk; cbn [merge_variant] in E.
  - injection E as <-. split; [constructor; auto|]. split; [discriminate|]. split; [|split; [|split]].
    + intros _. cbn. constructor; [intros []|constructor].
    + intros g [<-|[]]. right. reflexivity.
    + intros Q _ HQ. constructor; [exact HQ|constructor].
    + intros X C HC HG Hp. split; [constructor; auto|]. intros vt path Hne Ht. pose proof (shows_nil vt path Hne). tauto.
  - inversion Hk as [|? ? Hv Hvs]; subst. destruct (guard_eqb (p_guard v) (p_guard p)) eqn:Eg.
    + apply guard_eqb_true in Eg. destruct (mm v p P) as [v'|] eqn:Em; cbn [bbind] in E; [|discriminate]. injection E as <-.
      destruct (Hmm v p P v' Em Hv Eg) as (K1 & K2 & K3 & K4).
      split; [constructor; [congruence|exact Hvs]|]. split; [discriminate|]. split; [|split; [|split]].
      * cbn. rewrite K2. auto.
      * intros g Hg. cbn in Hg |- *. rewrite K2 in Hg. left. exact Hg.
      * intros Q HQ _. inversion HQ; subst. constructor; [rewrite K2, K3; assumption|assumption].
      * intros X C HC HG Hp. inversion HG as [|? ? Gv Gvs]; subst. destruct (K4 X C HC Gv Hp) as [G S]. split; [constructor; assumption|].
        intros vt path Hne Ht. rewrite (shows_cons vt path v' vs Hne), (shows_cons vt path v vs Hne), (S vt path Hne Ht). tauto.
    + destruct (merge_variant mm vs p P) as [r|] eqn:Er; cbn [bbind] in E; [|discriminate]. injection E as <-.
      destruct (IH p P r Er Hvs) as (K1 & K2 & K3 & K4 & K5 & K6).
      split; [constructor; assumption|]. split; [discriminate|]. split; [|split; [|split]].
      * cbn. intros N. inversion N as [|? ? Hni Hnd]; subst. constructor; [|auto].
        intros Hin. apply K4 in Hin. destruct Hin as [Hin|Hin]; [exact (Hni Hin)|]. rewrite Hin, guard_eqb_same in Eg. discriminate.
      * intros g Hg. cbn in Hg |- *. destruct Hg as [<-|Hg]; [left; left; reflexivity|]. destruct (K4 g Hg); auto.
      * intros Q HQ Hp. inversion HQ; subst. constructor; [assumption|]. apply K5; assumption.
      * intros X C HC HG Hp. inversion HG as [|? ? Gv Gvs]; subst. destruct (K6 X C HC Gvs Hp) as [G S]. split; [constructor; assumption|].
        intros vt path Hne Ht. rewrite (shows_cons vt path v r Hne), (shows_cons vt path v vs Hne), (S vt path Hne Ht). tauto.
Qed.

Definition keyed (fs : variants) : Prop := Forall (fun kv => Forall (fun p => p_key p = fst kv) (snd kv)) fs.
Lemma keyed_of P X C fs : variants_ok P X C fs -> keyed fs.
Proof.
  intros [_ H]. unfold keyed. rewrite Forall_forall in *. intros kv Hin. destruct (H kv Hin) as [G _].
  rewrite Forall_forall in *. intros p Hp. exact (proj1 (G p Hp)).
Qed.

Lemma merge_plan_ok fs : forall p P fs', merge_plan mm fs p P = BOk fs' -> keyed fs ->
  keyed fs' /\ fs' <> [] /\ (forall k, In k (map fst fs') -> In k (map fst fs) \/ k = p_key p) /\
  (forall Q : option tcond -> string -> Prop, tracked Q (flat fs) -> Q (p_guard p) (p_field p) -> tracked Q (flat fs')) /\
  forall X C, coherent C -> variants_ok P X C fs -> good p P X C ->
    variants_ok P X C fs' /\
    forall vt path, path <> [] -> typed X path -> (shows vt path (flat fs') <-> shows vt path (flat fs) \/ shows vt path [p]).
Proof.
  induction fs as [|[k vs] fs IH]; intros p P fs' E Hk; cbn [merge_plan] in E.
  - injection E as <-. split; [constructor; [constructor; [reflexivity|constructor]|constructor]|]. split; [discriminate|].
    split; [intros k [<-|[]]; right; reflexivity|]. split; [intros Q _ HQ; constructor; [exact HQ|constructor]|].
    intros X C HC HV Hp. split.
    + split; [constructor; [intros []|constructor]|]. constructor; [|constructor]. split; [|split].
      * constructor; [split; [reflexivity|exact Hp]|constructor].
      * constructor; [intros []|constructor].
      * discriminate.
    + intros vt path Hne Ht. pose proof (shows_nil vt path Hne). change (flat []) with (@nil plan). change (flat [(p_key p, [p])]) with [p]. tauto.
  - inversion Hk as [|? ? Hv Hfs]; subst. cbn [fst snd] in Hv. destruct (String.eqb (p_key p) k) eqn:Ek.
    + apply String.eqb_eq in Ek. destruct (merge_variant mm vs p P) as [vs'|] eqn:Em; cbn [bbind] in E; [|discriminate].
      injection E as <-. subst k.
      destruct (merge_variant_ok vs p P vs' Em Hv) as (K1 & K0 & K2 & K3 & K4 & K5).
      split; [constructor; assumption|]. split; [discriminate|]. split; [intros k Hin; left; exact Hin|]. split.
      * intros Q HQ Hp. unfold tracked in *. rewrite flat_cons in *. cbn [snd] in *. apply Forall_app in HQ. apply Forall_app.
        split; [apply K4; tauto|tauto].
      * intros X C HC [N G] Hp. inversion G as [|? ? [G1 [G2 G4]] G3]; subst. cbn [fst snd] in *.
        assert (F : Forall (fun v => good v P X C) vs) by (eapply Forall_impl; [|exact G1]; cbn; tauto).
        destruct (K5 X C HC F Hp) as [F' S]. split.
        -- split; [exact N|]. constructor; [|exact G3]. split; [|split]; cbn [fst snd]; [|apply K2; exact G2|exact K0].
           rewrite Forall_forall in *. intros q Hq. split; [apply K1; exact Hq|apply F'; exact Hq].
        -- intros vt path Hne Ht. specialize (S vt path Hne Ht).
           rewrite !flat_cons. cbn [snd]. rewrite !(shows_app vt path) by assumption. tauto.
    + destruct (merge_plan mm fs p P) as [r|] eqn:Er; cbn [bbind] in E; [|discriminate]. injection E as <-.
      destruct (IH p P r Er Hfs) as (K1 & K2 & K3 & K4 & K5).
      split; [constructor; assumption|]. split; [discriminate|]. split; [|split].
      * intros k' Hin. cbn in Hin |- *. destruct Hin as [<-|Hin]; [auto|]. destruct (K3 k' Hin); auto.
      * intros Q HQ Hp. unfold tracked in *. rewrite flat_cons in *. cbn [snd] in *. apply Forall_app in HQ. apply Forall_app.
        split; [tauto|apply K4; tauto].
      * intros X C HC [N G] Hp. cbn [map fst] in N. inversion N as [|? ? Hni Hnd]; subst. inversion G as [|? ? Gk Gf]; subst.
        destruct (K5 X C HC (conj Hnd Gf) Hp) as [[N' G'] S]. split.
        -- split; [|constructor; assumption]. cbn [map fst]. constructor; [|exact N'].
           intros Hin. apply K3 in Hin. destruct Hin as [Hin|Hin]; [contradiction|]. subst k. rewrite String.eqb_refl in Ek. discriminate.
        -- intros vt path Hne Ht. specialize (S vt path Hne Ht).
           rewrite !flat_cons. cbn [snd]. rewrite !(shows_app vt path) by assumption. tauto.
Qed.

Lemma merge_plans_ok ps : forall fs P fs', merge_plans mm fs ps P = BOk fs' -> keyed fs ->
  keyed fs' /\ (fs <> [] \/ ps <> [] -> fs' <> []) /\
  (forall Q : option tcond -> string -> Prop, tracked Q (flat fs) -> tracked Q ps -> tracked Q (flat fs')) /\
  forall X C, coherent C -> variants_ok P X C fs -> Forall (fun p => good p P X C) ps ->
    variants_ok P X C fs' /\
    forall vt path, path <> [] -> typed X path -> (shows vt path (flat fs') <-> shows vt path (flat fs) \/ shows vt path ps).
Proof.
  induction ps as [|p ps IH]; intros fs P fs' E Hk; cbn [merge_plans] in E.
  - injection E as <-. split; [exact Hk|]. split; [tauto|]. split; [tauto|]. intros X C HC HV _. split; [exact HV|].
    intros vt path Hp Ht. pose proof (shows_nil vt path Hp). tauto.
  - destruct (merge_plan mm fs p P) as [fs1|] eqn:E1; cbn [bbind] in E; [|discriminate].
    destruct (merge_plan_ok fs p P fs1 E1 Hk) as (K1 & K2 & _ & K4 & K5).
    destruct (IH fs1 P fs' E K1) as (J1 & J2 & J4 & J5). split; [exact J1|]. split; [intros _; apply J2; left; exact K2|].
    split.
    + intros Q HQ Hps. inversion Hps; subst. apply J4; [apply K4; assumption|assumption].
    + intros X C HC HV Hps. inversion Hps; subst. destruct (K5 X C HC HV H1) as [HV1 S1]. destruct (J5 X C HC HV1 H2) as [HV2 S2].
      split; [exact HV2|]. intros vt path Hp Ht. rewrite (S2 vt path Hp Ht), (S1 vt path Hp Ht), (shows_cons vt path p ps Hp). tauto.
Qed.

(** *** Splitting by type *)
Definition at_type (t : string) (path : list step) : Prop := match path with (T, _, _) :: _ => T = t | [] => False end.
Lemma at_nonempty t path : at_type t path -> path <> [].
Proof. destruct path; [intros []|discriminate]. Qed.
Lemma p_key_reguard g p : p_key (reguard g p) = p_key p. Proof. destruct p; reflexivity. Qed.
Lemma p_guard_reguard g p : p_guard (reguard g p) = g. Proof. destruct p; reflexivity. Qed.
Lemma p_field_reguard g p : p_field (reguard g p) = p_field p. Proof. destruct p; reflexivity. Qed.
Lemma p_typename_reguard g p : p_typename (reguard g p) = p_typename p. Proof. destruct p; reflexivity. Qed.
Lemma p_null_reguard g p : p_null (reguard g p) = p_null p. Proof. destruct p; reflexivity. Qed.
Lemma p_cond_reguard g p : p_cond (reguard g p) = p_cond p. Proof. destruct p; reflexivity. Qed.
Lemma p_val_reguard g p : p_val (reguard g p) = p_val p. Proof. destruct p; reflexivity. Qed.
Lemma kids_reguard g p : kids (reguard g p) = kids p. Proof. destruct p; reflexivity. Qed.

Lemma exact_output P t f o : f <> "__typename" -> output t f = Some o -> field_output M order P (Some (TExact t)) f = Some o.
Proof.
  intros Hn Ho. unfold field_output. apply String.eqb_neq in Hn. rewrite Hn. cbn [names_of first_some].
  rewrite output_name_eq, Ho. reflexivity.
Qed.
Lemma reguard_exact_good v P X C t : good v P X C -> opens (p_guard v) t -> good (reguard (Some (TExact t)) v) P X C.
Proof.
  intros G Ho. apply good_unfold. intros T HX Hg. rewrite p_guard_reguard in Hg. cbn in Hg. subst T.
  rewrite good_unfold in G. destruct (G t HX Ho) as (HC & Ht & H).
  rewrite p_key_reguard, p_field_reguard, p_typename_reguard, p_null_reguard, p_val_reguard, p_cond_reguard, p_guard_reguard.
  split; [exact HC|]. split; [exact Ht|]. destruct H as [H|(Hn & o & H1 & _ & H2)]; [left; exact H|].
  right. split; [exact Hn|]. exists o. split; [exact H1|]. split; [apply exact_output; assumption|exact H2].
Qed.
Lemma reguard_shows vt path t v : at_type t path -> opens (p_guard v) t ->
  (shows vt path [reguard (Some (TExact t)) v] <-> shows vt path [v]).
Proof.
  destruct path as [|[[T k] f] path]; [intros []|]. cbn [at_type]. intros -> Ho. rewrite !shows_one.
  rewrite p_key_reguard, p_field_reguard, p_guard_reguard, p_cond_reguard, kids_reguard. cbn [opens]. tauto.
Qed.
Lemma closed_no_show vt path t v : at_type t path -> ~ opens (p_guard v) t -> ~ shows vt path [v].
Proof. destruct path as [|[[T k] f] path]; [intros []|]. cbn [at_type]. intros -> Ho. rewrite shows_one. tauto. Qed.

Definition opt_list {A} (o : option A) : list A := match o with Some a => [a] | None => [] end.
Definition scoped_to (k t : string) (p : plan) : Prop := p_key p = k /\ p_guard p = Some (TExact t).

Lemma opens_test v t : (match p_guard v with None => true | Some g => tmatches g t end) = true <-> opens (p_guard v) t.
Proof. destruct (p_guard v) as [g|]; [rewrite opens_iff; reflexivity|cbn; tauto]. Qed.

Lemma merge_for_type_ok vs : forall acc t P m k, merge_for_type mm acc vs t P = BOk m ->
  Forall (fun v => p_key v = k) vs -> Forall (scoped_to k t) (opt_list acc) ->
  Forall (scoped_to k t) (opt_list m) /\
  (acc <> None \/ (exists v, In v vs /\ opens (p_guard v) t) -> m <> None) /\
  forall X C, coherent C -> Forall (fun v => good v P X C) vs -> Forall (fun v => good v P X C) (opt_list acc) ->
    Forall (fun v => good v P X C) (opt_list m) /\
    forall vt path, at_type t path -> typed X path ->
      (shows vt path (opt_list m) <-> shows vt path (opt_list acc) \/ shows vt path vs).
Proof.
  induction vs as [|v vs IH]; intros acc t P m k E Hk Ha; cbn [merge_for_type] in E.
  - injection E as <-. split; [exact Ha|]. split; [intros [H|(v & [] & _)]; exact H|]. intros X C HC _ HG. split; [exact HG|].
    intros vt path Hat Ht. pose proof (shows_nil vt path (at_nonempty _ _ Hat)). tauto.
  - inversion Hk as [|? ? Hv Hvs]; subst.
    destruct (match p_guard v with None => true | Some g => tmatches g t end) eqn:Eo.
    + apply opens_test in Eo.
      assert (Hsc : scoped_to (p_key v) t (reguard (Some (TExact t)) v)) by (split; [apply p_key_reguard|apply p_guard_reguard]).
      destruct acc as [e|].
      * destruct (mm e (reguard (Some (TExact t)) v) P) as [e'|] eqn:Em; cbn [bbind] in E; [|discriminate].
        cbn [opt_list] in Ha. inversion Ha as [|? ? [He1 He2] _]; subst.
        destruct (Hmm e _ P e' Em) as (K1 & K2 & K3 & K4); [rewrite p_key_reguard; exact He1|rewrite p_guard_reguard; exact He2|].
        destruct (IH (Some e') t P m (p_key v) E Hvs) as (J1 & J2 & J3).
        { constructor; [|constructor]. split; congruence. }
        split; [exact J1|]. split; [intros _; apply J2; left; discriminate|].
        intros X C HC HG HGa. inversion HG; subst. inversion HGa; subst.
        destruct (K4 X C HC H3 (reguard_exact_good v P X C t H1 Eo)) as [G' S'].
        destruct (J3 X C HC H2) as [G2 S2]; [constructor; [exact G'|constructor]|].
        split; [exact G2|]. intros vt path Hat Ht. rewrite (S2 vt path Hat Ht). cbn [opt_list].
        rewrite (S' vt path (at_nonempty _ _ Hat) Ht), (reguard_shows vt path t v Hat Eo), (shows_cons vt path v vs (at_nonempty _ _ Hat)). tauto.
      * destruct (IH _ t P m (p_key v) E Hvs) as (J1 & J2 & J3); [constructor; [exact Hsc|constructor]|].
        split; [exact J1|]. split; [intros _; apply J2; left; discriminate|].
        intros X C HC HG _. inversion HG; subst.
        destruct (J3 X C HC H2) as [G2 S2]; [constructor; [apply reguard_exact_good; assumption|constructor]|].
        split; [exact G2|]. intros vt path Hat Ht. rewrite (S2 vt path Hat Ht). cbn [opt_list].
        rewrite (reguard_shows vt path t v Hat Eo), (shows_cons vt path v vs (at_nonempty _ _ Hat)).
        pose proof (shows_nil vt path (at_nonempty _ _ Hat)). tauto.
    + assert (Ho : ~ opens (p_guard v) t) by (rewrite <- opens_test, Eo; discriminate).
      destruct (IH acc t P m (p_key v) E Hvs Ha) as (J1 & J2 & J3). split; [exact J1|]. split.
      * intros [H|(w & [<-|Hin] & Hw)]; [apply J2; left; exact H|contradiction|]. apply J2. right. exists w. split; assumption.
      * intros X C HC HG HGa. inversion HG; subst. destruct (J3 X C HC H2 HGa) as [G2 S2]. split; [exact G2|].
        intros vt path Hat Ht. rewrite (S2 vt path Hat Ht), (shows_cons vt path v vs (at_nonempty _ _ Hat)).
        pose proof (closed_no_show vt path t v Hat Ho). tauto.
Qed.

Definition exact_in (k : string) (ts : list string) (p : plan) : Prop :=
  p_key p = k /\ exists t, In t ts /\ p_guard p = Some (TExact t).
Lemma apart_cons_exact X p l t :
  p_guard p = Some (TExact t) -> (forall q, In q l -> exists t', t' <> t /\ p_guard q = Some (TExact t')) -> apart X l -> apart X (p :: l).
Proof.
  intros Hp Hl Ha. cbn [apart]. split; [|exact Ha]. intros q Hin _. destruct (Hl q Hin) as (t' & Hne & Hq). rewrite Hp, Hq. split; [congruence|].
  cbn. intros T _ -> E. congruence.
Qed.
Lemma for_types_ok ts : forall vs P l k, for_types mm vs ts P = BOk l -> NoDup ts ->
  Forall (fun v => p_key v = k) vs ->
  Forall (exact_in k ts) l /\ ((exists v t, In v vs /\ In t ts /\ opens (p_guard v) t) -> l <> []) /\
  (forall X, apart X l) /\
  forall X C, coherent C -> Forall (fun v => good v P X C) vs ->
    Forall (fun v => good v P X C) l /\
    forall vt t path, In t ts -> at_type t path -> typed X path -> (shows vt path l <-> shows vt path vs).
Proof.
  induction ts as [|t ts IH]; intros vs P l k E Hnd Hk; cbn [for_types] in E.
  - injection E as <-. split; [constructor|]. split; [intros (v & t & _ & [] & _)|]. split; [intros X; exact I|].
    intros X C HC HG. split; [constructor|]. intros vt t path [].
  - inversion Hnd as [|? ? Hni Hnd']; subst.
    destruct (merge_for_type mm None vs t P) as [m|] eqn:Em; cbn [bbind] in E; [|discriminate].
    destruct (for_types mm vs ts P) as [r|] eqn:Er; cbn [bbind] in E; [|discriminate].
    destruct (merge_for_type_ok vs None t P m k Em Hk) as (K1 & K2 & K3); [constructor|].
    destruct (IH vs P r k Er Hnd' Hk) as (J1 & J2 & J3 & J4).
    assert (El : l = opt_list m ++ r) by (destruct m; injection E as <-; reflexivity). clear E. subst l.
    assert (Hr : forall q, In q r -> exists t', t' <> t /\ p_guard q = Some (TExact t')).
    { intros q Hq. rewrite Forall_forall in J1. destruct (J1 q Hq) as (_ & t' & Hin & Hg). exists t'. split; [congruence|exact Hg]. }
    split; [|split; [|split]].
    + apply Forall_app. split.
      * eapply Forall_impl; [|exact K1]. intros p [H1 H2]. split; [exact H1|]. exists t. split; [left; reflexivity|exact H2].
      * eapply Forall_impl; [|exact J1]. intros p [H1 (t' & H2 & H3)]. split; [exact H1|]. exists t'. split; [right; exact H2|exact H3].
    + intros (v & t' & Hv & [<-|Ht'] & Ho).
      * assert (m <> None) by (apply K2; right; exists v; split; assumption). destruct m; [discriminate|congruence].
      * assert (r <> []) by (apply J2; exists v, t'; auto). destruct (opt_list m); [assumption|discriminate].
    + intros X. destruct m as [p|]; [|apply J3]. cbn [opt_list app]. cbn [opt_list] in K1. inversion K1 as [|? ? [_ Hg] _]; subst.
      apply (apart_cons_exact X p r t Hg Hr (J3 X)).
    + intros X C HC HG. destruct (K3 X C HC HG) as [G1 S1]; [constructor|]. destruct (J4 X C HC HG) as [G2 S2]. split.
      * apply Forall_app. split; assumption.
      * intros vt t' path Hin Hat Ht. pose proof (at_nonempty _ _ Hat) as Hne. rewrite (shows_app vt path _ _ Hne).
        assert (Hn : ~ shows vt path []) by (apply shows_nil; exact Hne).
        destruct Hin as [<-|Hin].
        -- assert (N : ~ shows vt path r).
           { clear -Hr Hat. destruct path as [|[[T k] f] path]; [destruct Hat|]. cbn in Hat. subst T.
             intros (p & Hp & _ & _ & Ho & _). destruct (Hr p Hp) as (t' & Hne & Hg). rewrite Hg in Ho. cbn in Ho. congruence. }
           pose proof (S1 vt path Hat Ht). cbn [opt_list] in *. tauto.
        -- assert (N : ~ shows vt path (opt_list m)).
           { destruct m as [p|]; [|exact Hn]. cbn [opt_list] in *. inversion K1 as [|? ? [_ Hg] _]; subst.
             apply (closed_no_show vt path t' p Hat). rewrite Hg. cbn. intros ->. contradiction. }
           pose proof (S2 vt t' path Hin Hat Ht). tauto.
Qed.

Lemma apart_app X a b : apart X a -> apart X b ->
  (forall p q, In p a -> In q b -> p_key q <> p_key p) -> apart X (a ++ b).
Proof.
  induction a as [|p a IH]; intros Ha Hb Hk; [exact Hb|]. cbn [apart app] in *. destruct Ha as [H1 H2]. split.
  - intros q Hq Ek. apply in_app_or in Hq. destruct Hq as [Hq|Hq]; [apply H1; assumption|].
    exfalso. exact (Hk p q (or_introl eq_refl) Hq Ek).
  - apply IH; [exact H2|exact Hb|]. intros x y Hx Hy. apply Hk; [right; exact Hx|exact Hy].
Qed.
Lemma exclusive_apart X vs : exclusive vs = true -> NoDup (map p_guard vs) -> apart X vs.
Proof.
  unfold exclusive. intros E. apply orb_prop in E. destruct E as [E|E].
  - intros _. apply Nat.eqb_eq in E. destruct vs as [|v [|w vs]]; try discriminate. cbn. split; [intros q []|exact I].
  - induction vs as [|v vs IH]; intros N; [exact I|]. cbn [forallb] in E. apply andb_prop in E. destruct E as [E1 E2].
    cbn [map] in N. inversion N as [|? ? Hni Hnd]; subst. destruct (p_guard v) as [[t|]|] eqn:Eg; try discriminate.
    apply (apart_cons_exact X v vs t Eg); [|apply IH; assumption].
    intros q Hq. rewrite forallb_forall in E2. specialize (E2 q Hq). destruct (p_guard q) as [[t'|]|] eqn:Eq; try discriminate.
    exists t'. split; [|reflexivity]. intros ->. apply Hni. rewrite <- Eq. apply in_map. exact Hq.
Qed.

Definition within (X : string -> Prop) (P : string) : Prop := forall T, X T -> objs P T.
Lemma concrete_iff P t : In t (concrete P) <-> objs P t.
Proof. unfold PlanModel.concrete, PlanSpec.objs. rewrite filter_In. tauto. Qed.
Lemma concrete_nodup P : NoDup (concrete P).
Proof. apply NoDup_filter. apply (so_set M Sok). Qed.

Lemma resolve_ok fs : forall P l, resolve M mm fs P = BOk l -> keyed fs -> NoDup (map fst fs) ->
  (forall p, In p l -> In (p_key p) (map fst fs)) /\
  (forall Q : option tcond -> Prop, Forall (fun p => Q (p_guard p)) (flat fs) -> (forall t, objs P t -> Q (Some (TExact t))) -> Forall (fun p => Q (p_guard p)) l) /\
  ((exists v t, In v (flat fs) /\ objs P t /\ opens (p_guard v) t) -> l <> []) /\
  forall X C, within X P -> coherent C -> variants_ok P X C fs ->
    Forall (fun v => good v P X C) l /\ apart X l /\
    forall vt path, path <> [] -> typed X path -> (shows vt path l <-> shows vt path (flat fs)).
Proof.
  induction fs as [|[k vs] fs IH]; intros P l E Hk Hnd; cbn [resolve] in E.
  - injection E as <-. split; [intros p []|]. split; [constructor|]. split; [intros (v & t & [] & _)|].
    intros X C _ _ _. split; [constructor|]. split; [exact I|]. tauto.
  - inversion Hk as [|? ? Hv Hfs]; subst. cbn [fst snd] in Hv. cbn [map fst] in Hnd. inversion Hnd as [|? ? Hni Hnd']; subst.
    destruct (if exclusive vs then BOk vs else for_types mm vs (concrete P) P) as [a|] eqn:Ea; cbn [bbind] in E; [|discriminate].
    destruct (resolve M mm fs P) as [b|] eqn:Eb; cbn [bbind] in E; [|discriminate]. injection E as <-.
    destruct (IH P b Eb Hfs Hnd') as (J1 & J2 & J3 & J4).
    assert (A : Forall (fun p => p_key p = k) a /\
      (forall Q : option tcond -> Prop, Forall (fun p => Q (p_guard p)) vs -> (forall t, objs P t -> Q (Some (TExact t))) -> Forall (fun p => Q (p_guard p)) a) /\
      ((exists v t, In v vs /\ objs P t /\ opens (p_guard v) t) -> a <> []) /\
      forall X C, within X P -> coherent C -> group_ok P X C (k, vs) ->
        Forall (fun v => good v P X C) a /\ apart X a /\
        forall vt path, path <> [] -> typed X path -> (shows vt path a <-> shows vt path vs)).
    { destruct (exclusive vs) eqn:Ex.
      - injection Ea as <-. split; [exact Hv|]. split; [tauto|]. split; [intros (v & t & Hin & _) ->; exact Hin|].
        intros X C HX HC (G1 & G2 & G3). cbn [fst snd] in *. split; [eapply Forall_impl; [|exact G1]; cbn; tauto|].
        split; [apply exclusive_apart; assumption|]. tauto.
      - destruct (for_types_ok (concrete P) vs P a k Ea (concrete_nodup P) Hv) as (K1 & K2 & K3 & K4).
        split; [eapply Forall_impl; [|exact K1]; intros p [H _]; exact H|]. split; [|split].
        + intros Q _ HQ. eapply Forall_impl; [|exact K1]. intros p (_ & t & Ht & Hg). cbv beta. rewrite Hg. apply HQ. apply concrete_iff. exact Ht.
        + intros (v & t & Hin & Ht & Ho). apply K2. exists v, t. split; [exact Hin|]. split; [apply concrete_iff; exact Ht|exact Ho].
        + intros X C HX HC (G1 & G2 & G3). cbn [fst snd] in *.
          assert (F : Forall (fun v => good v P X C) vs) by (eapply Forall_impl; [|exact G1]; cbn; tauto).
          destruct (K4 X C HC F) as [GG SS]. split; [exact GG|]. split; [apply K3|].
          intros vt path Hp Ht. destruct path as [|[[T k'] f] path]; [congruence|].
          apply (SS vt T); [|reflexivity|exact Ht]. apply concrete_iff, HX. exact (proj1 Ht). }
    destruct A as (A1 & A2 & A3 & A4). split; [|split; [|split]].
    + intros p Hin. apply in_app_or in Hin. cbn [map fst]. destruct Hin as [Hin|Hin]; [|right; apply J1; exact Hin].
      left. rewrite Forall_forall in A1. symmetry. apply A1. exact Hin.
    + intros Q HQ HP. rewrite flat_cons in HQ. cbn [snd] in HQ. apply Forall_app in HQ. apply Forall_app. split; [apply A2; tauto|apply J2; tauto].
    + intros (v & t & Hin & Ht & Ho). rewrite flat_cons in Hin. cbn [snd] in Hin. apply in_app_or in Hin. destruct Hin as [Hin|Hin].
      * assert (a <> []) by (apply A3; exists v, t; auto). destruct a; [congruence|discriminate].
      * assert (b <> []) by (apply J3; exists v, t; auto). destruct a; [assumption|discriminate].
    + intros X C HX HC [_ HV]. inversion HV as [|? ? G1 G2]; subst. destruct (A4 X C HX HC G1) as (B1 & B2 & B3).
      destruct (J4 X C HX HC (conj Hnd' G2)) as (D1 & D2 & D3). split; [apply Forall_app; split; assumption|]. split.
      * apply apart_app; [exact B2|exact D2|]. intros p q Hp Hq Eq. rewrite Forall_forall in A1. rewrite (A1 p Hp) in Eq.
        apply Hni. rewrite <- Eq. apply J1. exact Hq.
      * intros vt path Hp Ht. rewrite flat_cons. cbn [snd]. rewrite !(shows_app vt path) by assumption.
        rewrite (B3 vt path Hp Ht), (D3 vt path Hp Ht). reflexivity.
Qed.
End WithMerge.

(** *** Regrouping *)
Lemma push_ok fs : forall p P X C, variants_ok P X C fs -> good p P X C ->
  (forall q, In q (flat fs) -> p_key q = p_key p -> p_guard q <> p_guard p) ->
  variants_ok P X C (push fs p) /\ (forall q, In q (flat (push fs p)) <-> In q (flat fs) \/ q = p) /\
  (forall k, In k (map fst (push fs p)) -> In k (map fst fs) \/ k = p_key p).
Proof.
  induction fs as [|[k vs] fs IH]; intros p P X C HV HG Hd; cbn [push].
  - split; [|split].
    + split; [constructor; [intros []|constructor]|]. constructor; [|constructor]. split; [|split].
      * constructor; [split; [reflexivity|exact HG]|constructor].
      * constructor; [intros []|constructor].
      * discriminate.
    + intros q. cbn. intuition congruence.
    + intros k. cbn. intuition congruence.
  - destruct HV as [N G]. cbn [map fst] in N. inversion N as [|? ? Hni Hnd]; subst. inversion G as [|? ? (G1 & G2 & G3) G4]; subst.
    cbn [fst snd] in *. destruct (String.eqb (p_key p) k) eqn:Ek.
    + apply String.eqb_eq in Ek. subst k. split; [|split].
      * split; [exact N|]. constructor; [|exact G4]. split; [|split]; cbn [fst snd].
        -- apply Forall_app. split; [exact G1|]. constructor; [split; [reflexivity|exact HG]|constructor].
        -- rewrite map_app. cbn [map].
           assert (Hin : ~ In (p_guard p) (map p_guard vs)).
           { intros Hin. apply in_map_iff in Hin. destruct Hin as (q & Eq & Hq).
             rewrite Forall_forall in G1. apply (Hd q); [rewrite flat_cons; apply in_or_app; left; exact Hq|exact (proj1 (G1 q Hq))|exact Eq]. }
           clear -G2 Hin. induction (map p_guard vs) as [|x l IH]; cbn; [constructor; [intros []|constructor]|].
           inversion G2; subst. cbn in Hin. constructor; [|apply IH; tauto]. intros H. apply in_app_or in H. destruct H as [H|[H|[]]]; [contradiction|].
           apply Hin. left. symmetry. exact H.
        -- destruct vs; discriminate.
      * intros q. rewrite !flat_cons. cbn [snd]. rewrite !in_app_iff. cbn. intuition congruence.
      * intros k Hin. left. exact Hin.
    + destruct (IH p P X C (conj Hnd G4) HG) as (K1 & K2 & K3).
      { intros q Hq. apply Hd. rewrite flat_cons. apply in_or_app. right. exact Hq. }
      destruct K1 as [K0 K1]. split; [|split].
      * split; [|constructor; [split; [exact G1|split; assumption]|exact K1]]. cbn [map fst]. constructor; [|exact K0].
        intros Hin. apply K3 in Hin. destruct Hin as [Hin|Hin]; [contradiction|]. subst k. rewrite String.eqb_refl in Ek. discriminate.
      * intros q. rewrite !flat_cons, !in_app_iff, K2. tauto.
      * intros k' Hin. cbn [map fst] in Hin |- *. destruct Hin as [<-|Hin]; [left; left; reflexivity|]. destruct (K3 k' Hin); [left; right; assumption|right; assumption].
Qed.
Lemma group_variants l P X C : Forall (fun q => good q P X C) l -> apart X l ->
  variants_ok P X C (group l) /\ (forall q, In q (flat (group l)) <-> In q l).
Proof.
  unfold group.
  assert (G : forall l fs, Forall (fun q => good q P X C) l -> apart X l -> variants_ok P X C fs ->
     (forall p q, In q (flat fs) -> In p l -> p_key q = p_key p -> p_guard q <> p_guard p) ->
     variants_ok P X C (fold_left push l fs) /\ (forall q, In q (flat (fold_left push l fs)) <-> In q (flat fs) \/ In q l)).
  { clear l. induction l as [|p l IH]; intros fs HG HA HV Hd; cbn [fold_left].
    - split; [exact HV|]. cbn. tauto.
    - inversion HG as [|? ? Hp Hl]; subst. cbn [apart] in HA. destruct HA as [A1 A2].
      destruct (push_ok fs p P X C HV Hp) as (K1 & K2 & _).
      { intros q Hq. apply Hd; [exact Hq|left; reflexivity]. }
      destruct (IH (push fs p) Hl A2 K1) as (J1 & J2).
      { intros x q Hq Hx Ek. apply K2 in Hq. destruct Hq as [Hq| ->]; [apply Hd; [exact Hq|right; exact Hx|exact Ek]|].
        intros Eg. apply (proj1 (A1 x Hx (eq_sym Ek))). symmetry. exact Eg. }
      split; [exact J1|]. intros q. rewrite J2, K2. cbn. intuition congruence. }
  intros HG HA. destruct (G l [] HG HA) as [H1 H2].
  - split; constructor.
  - intros p q [].
  - split; [exact H1|]. intros q. rewrite H2. cbn. tauto.
Qed.
(** regrouping never depends on the invariant for the keys *)
Lemma push_keyed fs p : keyed fs -> NoDup (map fst fs) ->
  keyed (push fs p) /\ NoDup (map fst (push fs p)) /\ (forall k, In k (map fst (push fs p)) -> In k (map fst fs) \/ k = p_key p).
Proof.
  induction fs as [|[k vs] fs IH]; intros Hk Hn; cbn [push].
  - split; [constructor; [constructor; [reflexivity|constructor]|constructor]|]. split; [constructor; [intros []|constructor]|].
    intros k. cbn. intuition congruence.
  - inversion Hk as [|? ? Hv Hf]; subst. cbn [map fst] in Hn. inversion Hn as [|? ? Hni Hnd]; subst. cbn [fst snd] in Hv.
    destruct (String.eqb (p_key p) k) eqn:Ek.
    + apply String.eqb_eq in Ek. subst k. split; [|split; [exact Hn|auto]]. constructor; [|exact Hf]. cbn [fst snd]. apply Forall_app.
      split; [exact Hv|]. constructor; [reflexivity|constructor].
    + destruct (IH Hf Hnd) as (K1 & K2 & K3). split; [constructor; assumption|]. cbn [map fst]. split.
      * constructor; [|exact K2]. intros Hin. apply K3 in Hin. destruct Hin as [Hin|Hin]; [contradiction|]. subst k. rewrite String.eqb_refl in Ek. discriminate.
      * intros k' [<-|Hin]; [left; left; reflexivity|]. destruct (K3 k' Hin); [left; right; assumption|right; assumption].
Qed.
Lemma group_keyed l : keyed (group l) /\ NoDup (map fst (group l)).
Proof.
  unfold group. assert (G : forall l fs, keyed fs -> NoDup (map fst fs) -> keyed (fold_left push l fs) /\ NoDup (map fst (fold_left push l fs))).
  { clear l. induction l as [|p l IH]; intros fs H1 H2; [auto|]. cbn [fold_left]. destruct (push_keyed fs p H1 H2) as (K1 & K2 & _). apply IH; assumption. }
  apply G; constructor.
Qed.

(** *** Merging two selections of one response key *)
Lemma merge_plan_nodup mm fs : forall p P fs', merge_plan mm fs p P = BOk fs' -> NoDup (map fst fs) ->
  NoDup (map fst fs') /\ (forall k, In k (map fst fs') -> In k (map fst fs) \/ k = p_key p).
Proof.
  induction fs as [|[k vs] fs IH]; intros p P fs' E Hn; cbn [merge_plan] in E.
  - injection E as <-. split; [constructor; [intros []|constructor]|]. cbn. intuition congruence.
  - cbn [map fst] in Hn. inversion Hn as [|? ? Hni Hnd]; subst. destruct (String.eqb (p_key p) k) eqn:Ek.
    + destruct (merge_variant mm vs p P); cbn [bbind] in E; [|discriminate]. injection E as <-. cbn [map fst]. auto.
    + destruct (merge_plan mm fs p P) as [r|] eqn:Er; cbn [bbind] in E; [|discriminate]. injection E as <-.
      destruct (IH p P r Er Hnd) as [K1 K2]. cbn [map fst]. split.
      * constructor; [|exact K1]. intros Hin. apply K2 in Hin. destruct Hin as [Hin|Hin]; [contradiction|]. subst k. rewrite String.eqb_refl in Ek. discriminate.
      * intros k' [<-|Hin]; [left; left; reflexivity|]. destruct (K2 k' Hin); [left; right; assumption|right; assumption].
Qed.
Lemma merge_plans_nodup mm ps : forall fs P fs', merge_plans mm fs ps P = BOk fs' -> NoDup (map fst fs) -> NoDup (map fst fs').
Proof.
  induction ps as [|p ps IH]; intros fs P fs' E Hn; cbn [merge_plans] in E; [injection E as <-; exact Hn|].
  destruct (merge_plan mm fs p P) as [r|] eqn:Er; cbn [bbind] in E; [|discriminate].
  apply (IH r P fs' E). exact (proj1 (merge_plan_nodup mm fs p P r Er Hn)).
Qed.

Lemma objs_within o : within (objs o) o.
Proof. intros T H. exact H. Qed.
Lemma p_key_with p c v : p_key (with_value (with_cond p c) v) = p_key p. Proof. destruct p; reflexivity. Qed.
Lemma p_guard_with p c v : p_guard (with_value (with_cond p c) v) = p_guard p. Proof. destruct p; reflexivity. Qed.
Lemma p_field_with p c v : p_field (with_value (with_cond p c) v) = p_field p. Proof. destruct p; reflexivity. Qed.
Lemma p_typename_with p c v : p_typename (with_value (with_cond p c) v) = p_typename p. Proof. destruct p; reflexivity. Qed.
Lemma p_null_with p c v : p_null (with_value (with_cond p c) v) = p_null p. Proof. destruct p; reflexivity. Qed.
Lemma p_cond_with p c v : p_cond (with_value (with_cond p c) v) = c. Proof. destruct p; reflexivity. Qed.
Lemma p_val_with p c v : p_val (with_value (with_cond p c) v) = v. Proof. destruct p; reflexivity. Qed.

Lemma kids_val p l : p_val p = SData (Some l) -> kids p = l.
Proof. unfold kids. intros ->. reflexivity. Qed.
Lemma kids_none p : p_val p = SData None -> kids p = [].
Proof. unfold kids. intros ->. reflexivity. Qed.
End Merge.
