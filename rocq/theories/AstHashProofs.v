From Coq Require Import String List NArith ZArith Bool Lia.
From Verif Require Import Ast AstHashModel AstHashSpec.
Import ListNotations.
Local Open Scope list_scope.

Section WithHash.
  Variable H : list token -> N.
  Notation toks := (sel_tokens H).
  Notation ah := (args_hash H).

  Lemma sel_tokens_field n a args i s o sub :
    toks (SField n a args i s o sub) =
    TStr n :: alias_tokens a ++ sels_tokens H sub ++
      (match args with Some l => [TWord (ah l)] | None => [] end) ++ cond_tokens i s ++ [word_of_bool o].
  Proof.
    reflexivity.
  Qed.

  Lemma fragment_free_field n a args i s o sub :
    fragment_free (SField n a args i s o sub) = forallb fragment_free sub.
  Proof. reflexivity. Qed.

  Lemma args_ok_field n a args i s o sub :
    args_ok ah (SField n a args i s o sub) =
    match args with Some l => (1 <? ah l)%N | None => true end && forallb (args_ok ah) sub.
  Proof. reflexivity. Qed.

  (** what can follow a list of selections: never the start of a field *)
  Definition ends (r : list token) : Prop :=
    match r with
    | [] => True
    | TWord _ :: _ => True
    | TStr _ :: TStr _ :: _ => True
    | _ => False
    end.

  Definition P (x : sel) : Prop := forall y r1 r2,
    fragment_free x = true -> fragment_free y = true ->
    args_ok ah x = true -> args_ok ah y = true ->
    toks x ++ r1 = toks y ++ r2 ->
    skeleton ah x = skeleton ah y /\ r1 = r2.

  Lemma field_start y r : fragment_free y = true ->
    exists n w t, toks y ++ r = TStr n :: TWord w :: t.
  Proof.
    destruct y as [n a args i s o sub| |]; try discriminate. intros _.
    rewrite sel_tokens_field. destruct a; cbn; eauto.
  Qed.

  Lemma sels_inj l1 : Forall P l1 -> forall l2 r1 r2,
    forallb fragment_free l1 = true -> forallb fragment_free l2 = true ->
    forallb (args_ok ah) l1 = true -> forallb (args_ok ah) l2 = true ->
    ends r1 -> ends r2 ->
    sels_tokens H l1 ++ r1 = sels_tokens H l2 ++ r2 ->
    map (skeleton ah) l1 = map (skeleton ah) l2 /\ r1 = r2.
  Proof.
    induction 1 as [|x l1 Hx Hl IH]; intros [|y l2] r1 r2 F1 F2 A1 A2 E1 E2 E; cbn in *.
    - auto.
    - exfalso. apply andb_true_iff in F2 as [F2 _].
      rewrite <- app_assoc in E. destruct (field_start y (flat_map toks l2 ++ r2) F2) as (n & w & t & Ey).
      rewrite Ey in E. subst r1. exact E1.
    - exfalso. apply andb_true_iff in F1 as [F1 _].
      rewrite <- app_assoc in E. destruct (field_start x (flat_map toks l1 ++ r1) F1) as (n & w & t & Ey).
      rewrite Ey in E. subst r2. exact E2.
    - apply andb_true_iff in F1 as [F1 F1'], F2 as [F2 F2'], A1 as [A1 A1'], A2 as [A2 A2'].
      rewrite <- !app_assoc in E.
      destruct (Hx y _ _ F1 F2 A1 A2 E) as [S E'].
      destruct (IH l2 r1 r2 F1' F2' A1' A2' E1 E2 E') as [S' R].
      split; [congruence|exact R].
  Qed.

  Definition tail (args : option (list (string * gvalue))) i s o : list token :=
    (match args with Some l => [TWord (ah l)] | None => [] end) ++ cond_tokens i s ++ [word_of_bool o].

  Lemma tail_ends args i s o r : ends (tail args i s o ++ r).
  Proof. unfold tail. destruct args, i, s, o; cbn; exact I. Qed.

  Lemma tail_inj args1 i1 s1 o1 args2 i2 s2 o2 r1 r2 :
    (match args1 with Some l => (1 <? ah l)%N | None => true end) = true ->
    (match args2 with Some l => (1 <? ah l)%N | None => true end) = true ->
    tail args1 i1 s1 o1 ++ r1 = tail args2 i2 s2 o2 ++ r2 ->
    option_map ah args1 = option_map ah args2 /\ i1 = i2 /\ s1 = s2 /\ o1 = o2 /\ r1 = r2.
  Proof.
    unfold tail, cond_tokens, word_of_bool.
    destruct args1 as [l1|], args2 as [l2|]; cbn [app option_map]; intros L1 L2;
      try apply N.ltb_lt in L1; try apply N.ltb_lt in L2.
    - destruct i1, i2, s1, s2, o1, o2; cbn; intro E; inversion E; subst; repeat split; congruence.
    - intro E. exfalso. destruct i1, i2, s1, s2, o1, o2; cbn in *; inversion E; lia.
    - intro E. exfalso. destruct i1, i2, s1, s2, o1, o2; cbn in *; inversion E; lia.
    - destruct i1, i2, s1, s2, o1, o2; cbn; intro E; inversion E; subst; repeat split; congruence.
  Qed.

  Lemma sel_inj x : P x.
  Proof.
    induction x as [n a args i s o sub IH|t i s sub IH|n] using sel_ind'; unfold P;
      intros y r1 r2 F1 F2 A1 A2 E; try discriminate.
    destruct y as [n' a' args' i' s' o' sub'| |]; try discriminate.
    rewrite fragment_free_field in F1, F2. rewrite args_ok_field in A1, A2.
    apply andb_true_iff in A1 as [A1 A1'], A2 as [A2 A2'].
    rewrite !sel_tokens_field in E. fold (tail args i s o) (tail args' i' s' o') in E.
    cbn [app] in E. rewrite <- !app_assoc in E. injection E as En E. subst n'.
    assert (a = a' /\ sels_tokens H sub ++ tail args i s o ++ r1 = sels_tokens H sub' ++ tail args' i' s' o' ++ r2) as [-> E'].
    { destruct a as [a|], a' as [a'|]; cbn [alias_tokens app] in E; inversion E; subst; auto. }
    destruct (sels_inj sub IH sub' _ _ F1 F2 A1' A2' (tail_ends _ _ _ _ _) (tail_ends _ _ _ _ _) E') as [S T].
    destruct (tail_inj _ _ _ _ _ _ _ _ _ _ A1 A2 T) as (Ea & -> & -> & -> & ->).
    cbn [skeleton]. rewrite S, Ea. auto.
  Qed.

  Definition eff_kind (k : option opkind) : opkind := match k with Some k => k | None => KQuery end.

  Lemma op_inj o1 o2 :
    forallb fragment_free (op_sels o1) = true -> forallb fragment_free (op_sels o2) = true ->
    forallb (args_ok ah) (op_sels o1) = true -> forallb (args_ok ah) (op_sels o2) = true ->
    op_tokens H o1 = op_tokens H o2 ->
    eff_kind (op_kind o1) = eff_kind (op_kind o2) /\
    map (skeleton ah) (op_sels o1) = map (skeleton ah) (op_sels o2) /\
    option_map (vars_hash H) (op_vars o1) = option_map (vars_hash H) (op_vars o2).
  Proof.
    intros F1 F2 A1 A2 E. unfold op_tokens in E.
    assert (K : eff_kind (op_kind o1) = eff_kind (op_kind o2) /\
      sels_tokens H (op_sels o1) ++ opt_tokens (fun vs => [TWord (vars_hash H vs)]) (op_vars o1) =
      sels_tokens H (op_sels o2) ++ opt_tokens (fun vs => [TWord (vars_hash H vs)]) (op_vars o2)).
    { unfold kind_tokens in E. cbn [app] in E. injection E as E1 E2. split; [|exact E2].
      destruct (op_kind o1) as [[]|], (op_kind o2) as [[]|]; cbn; congruence. }
    destruct K as [K E']. split; [exact K|].
    assert (P1 : Forall P (op_sels o1)) by (apply Forall_forall; intros x _; apply sel_inj).
    assert (G1 : forall v : option (list vardef), ends (opt_tokens (fun vs => [TWord (vars_hash H vs)]) v)) by (intros [v|]; exact I).
    destruct (sels_inj _ P1 _ _ _ F1 F2 A1 A2 (G1 _) (G1 _) E') as [S T].
    split; [exact S|]. destruct (op_vars o1), (op_vars o2); cbn in T; inversion T; cbn; congruence.
  Qed.
End WithHash.
