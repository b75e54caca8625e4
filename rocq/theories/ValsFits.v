(* The reports of the rule against input coercion *)
From Coq Require Import String List Bool ZArith Lia.
From Verif Require Import StrUtil Ast ConsumerModel IntroModel CondModel NormModel NormProofs WalkModel LocalModel LocalSpec WalkProofs LocalBase LocalRun ReachModel ReachSpec ReachBase ReachCalls ValsModel ValsSpec ValsProofs.
Import ListNotations.
Local Open Scope string_scope.
Local Open Scope list_scope.

Section Fits.
  Variable sch : list definition.
  Hypothesis WF : well_formed sch.
  Definition solid (v : gvalue) : Prop := simple v \/ exists o, v = GObj o.
  Lemma fits_base : forall t v, fits sch t v -> solid v -> fits sch (TNamed (base t)) v.
  Proof.
    intros t v F. induction F as [t x|t v N F IH|n|t|t l F IH|t v NL N F IH|n desc ds v N NM T|n desc ds vs s NM I|n desc ds fs o NM KN RQ FT IH]; intros SV.
    - destruct SV as [[]|[o E]]; discriminate E.
    - exact (IH SV).
    - destruct SV as [[]|[o E]]; discriminate E.
    - destruct SV as [[]|[o E]]; discriminate E.
    - destruct SV as [[]|[o E]]; discriminate E.
    - exact (IH SV).
    - eapply fits_scalar; eassumption.
    - eapply fits_enum; eassumption.
    - eapply fits_object; eassumption.
  Qed.
  Lemma fits_lift : forall t v, solid v -> fits sch (TNamed (base t)) v -> fits sch t v.
  Proof.
    intros t v SV F. induction t as [n|t IH|t IH]; [exact F| |].
    - apply fits_single; [| |exact (IH F)]; intros; intros ->; destruct SV as [[]|[o E]]; discriminate E.
    - apply fits_nonnull; [|exact (IH F)]. intros ->. destruct SV as [[]|[o E]]; discriminate E.
  Qed.
  Lemma fits_nonlist : forall t l, fits sch (TList t) (GList l) -> forall v, In v l -> fits sch t v.
  Proof. intros t l F. inversion F; subst; [assumption|]. now destruct (H0 l). Qed.
  Lemma fits_meets : forall b t v u w, meets sch b t v u w -> fits sch t v -> fits sch u w.
  Proof.
    intros b t v u w M. induction M as [t v|t l u v t' v' I J M IH|t o v ty f t' v' I N J M IH]; intros F.
    - exact F.
    - apply IH. destruct J as [->|[_ ->]].
      + eapply fits_nonlist; eassumption.
      + inversion F as [|t1 v1 N1 F1| | | | | | |]; subst. eapply fits_nonlist; eassumption.
    - apply IH. apply fits_base in F; [|right; now exists o].
      inversion F as [| | | | | |n desc ds v1 N1 NM T| |n desc ds fs o1 NM KN RQ FT]; subst.
      + pose proof (one_named _ WF _ _ _ N NM). subst ty. destruct J.
      + pose proof (one_named _ WF _ _ _ N NM). subst ty. now apply FT.
  Qed.
  Lemma fits_no_fault : forall t v e, fits sch t v -> ~ fault sch t v e.
  Proof.
    intros t v e F Q.
    assert (B : solid v -> fits sch (TNamed (base t)) v) by (intros SV; now apply fits_base).
    inversion Q as [u Et|w ty S1 N1 L1|w desc ds S1 N1 K1|s desc ds vs N1 K1|w desc ds vs S1 N1 K1|o desc ds fs f N1 F1 R1 K1|o desc ds fs k N1 F1 K1]; subst.
    - inversion F; subst. contradiction.
    - specialize (B (or_introl S1)). inversion B as [| | | | | |n d' ds' v1 N2 NM T|n d' ds' vs' s NM I|n d' ds' fs' o1 NM KN RQ FT]; subst; try destruct S1;
        pose proof (one_named _ WF _ _ _ N1 NM); subst ty; now apply L1.
    - specialize (B (or_introl S1)). inversion B as [| | | | | |n d' ds' v1 N2 NM T|n d' ds' vs' s NM I|n d' ds' fs' o1 NM KN RQ FT]; subst; try destruct S1;
        pose proof (one_named _ WF _ _ _ N1 NM) as E; try discriminate E. apply K1. now left.
    - specialize (B (or_introl Logic.I)). inversion B as [| | | | | |n d' ds' v1 N2 NM T|n d' ds' vs' s' NM I|]; subst;
        pose proof (one_named _ WF _ _ _ N1 NM) as E; try discriminate E. injection E as <- <- <-. contradiction.
    - specialize (B (or_introl S1)). inversion B as [| | | | | |n d' ds' v1 N2 NM T|n d' ds' vs' s NM I|n d' ds' fs' o1 NM KN RQ FT]; subst; try destruct S1;
        pose proof (one_named _ WF _ _ _ N1 NM) as E; try discriminate E. now destruct (K1 s).
    - specialize (B (or_intror (ex_intro _ o eq_refl))). inversion B as [| | | | | |n d' ds' v1 N2 NM T| |n d' ds' fs' o1 NM KN RQ FT]; subst;
        pose proof (one_named _ WF _ _ _ N1 NM) as E; try discriminate E. injection E as <- <- <-. auto.
    - specialize (B (or_intror (ex_intro _ o eq_refl))). inversion B as [| | | | | |n d' ds' v1 N2 NM T| |n d' ds' fs' o1 NM KN RQ FT]; subst;
        pose proof (one_named _ WF _ _ _ N1 NM) as E; try discriminate E. injection E as <- <- <-. auto.
  Qed.
  Lemma kind_dec : forall n v, simple v -> scalar_kind n v \/ ~ scalar_kind n v.
  Proof.
    intros n v SV. rewrite <- (accepts_iff n v SV). destruct (scalar_accepts n v); [left; now left|]. destruct (is_custom_scalar n); [left; now right|].
    right. intros [E|E]; discriminate E.
  Qed.
  Lemma tame_fits : forall t v, tame sch t v -> (forall u w e, meets sch true t v u w -> ~ fault sch u w e) -> fits sch t v.
  Proof.
    intros t v T. induction T as [t x|t|t v ty SV NM RG|t l T IH|t o desc ds fs NM T IH|n l OP|t o OP]; intros NF.
    - constructor.
    - destruct t; [constructor|constructor|]. exfalso. eapply NF; [constructor|]. now apply fault_null with t.
    - apply fits_lift; [now left|].
      assert (NM' : type_name ty = base t) by apply NM.
      destruct ty as [n desc ds|n desc im ds fl|n desc im ds fl|n desc ds ms|n desc ds vs|n desc ds fl]; cbn [type_name] in NM'; subst n.
      2,3,4,6: exfalso; eapply NF; [constructor|]; eapply fault_kind; [exact SV|exact NM|intros []].
      + destruct (kind_dec (base t) v SV) as [K|K]; [|exfalso; eapply NF; [constructor|]; eapply fault_scalar; eassumption].
        eapply fits_scalar; [destruct v; try destruct SV; discriminate|exact NM|]. destruct K as [K|(E & z & ->)]; [exact K|].
        right; left. split; [exact E|]. exists z. split; [reflexivity|]. now apply RG.
      + destruct v; try destruct SV; try (exfalso; eapply NF; [constructor|]; eapply fault_enum; [exact Logic.I|exact NM|discriminate]).
        destruct (in_dec string_dec s (map ev_name vs)) as [J|J]; [eapply fits_enum; eassumption|].
        exfalso. eapply NF; [constructor|]. eapply fault_value; eassumption.
    - apply fits_items. intros v I. apply (IH v I). intros u w e M. eapply NF. eapply meets_item; [exact I|now left|exact M].
    - apply fits_lift; [right; now exists o|]. eapply fits_object; [exact NM| | |].
      + intros k K. destruct (in_dec string_dec k (map iv_name fs)) as [J|J]; [exact J|]. exfalso. eapply NF; [constructor|]. eapply fault_field; eassumption.
      + intros f I R. destruct (in_dec string_dec (iv_name f) (map fst o)) as [J|J]; [exact J|]. exfalso. eapply NF; [constructor|]. eapply fault_missing; eassumption.
      + intros f v I J. apply (IH f v I J). intros u w e M. eapply NF. eapply meets_entry; [exact J|exact NM|exact I|exact M].
    - destruct OP as (desc & ds & NM & B). eapply fits_scalar; [discriminate|exact NM|now left].
    - destruct OP as (desc & ds & NM & B). apply fits_lift; [right; now exists o|]. eapply fits_scalar; [discriminate|exact NM|now left].
  Qed.
  Hypothesis IO : inputs_ok sch.
  Lemma sound_ok : forall doc l, walk sch doc = Some l -> forall e, In e (errors_of (values_of_correct_type sch) l) ->
    exists t v, place sch doc t v /\ ~ fits sch t v.
  Proof.
    intros doc l W e K. apply (reports_ok _ WF IO _ _ W) in K. destruct K as (t & v & u & w & P & M & F).
    exists t, v. split; [exact P|]. intros Q. eapply fits_no_fault; [|exact F]. eapply fits_meets; eassumption.
  Qed.
  Lemma complete_ok : forall doc l, walk sch doc = Some l -> errors_of (values_of_correct_type sch) l = [] ->
    forall t v, place sch doc t v -> tame sch t v -> fits sch t v.
  Proof.
    intros doc l W E t v P T. apply tame_fits; [exact T|]. intros u w e M F.
    assert (K : In e (errors_of (values_of_correct_type sch) l)) by (apply (reports_ok _ WF IO _ _ W); now exists t, v, u, w).
    rewrite E in K. destruct K.
  Qed.
End Fits.
