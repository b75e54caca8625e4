(** Errors raised while projecting. *)
From Coq Require Import String Ascii List NArith ZArith Arith Bool Lia.
From Verif Require Import StrOrd StrUtil JsonModel JsonWriterModel ProjModel ProjSpec ProjProofs.
Import ListNotations.
Local Open Scope string_scope.

Section E.
  Variable ryu : N -> string.
  Variable M : meta.
  Variable vtrue : string -> bool.
  Local Notation prj := (project ryu M vtrue).

  (** selection [q] applies to the object and its value is not in the enum *)
  Definition enum_bad (q : plan) (pt : rname) (o : list (string * value)) : bool :=
    (match p_guard q with None => true | Some g => match pt with inl n => tmatches g n | inr _ => false end end &&
     match p_cond q with
     | None => false
     | Some c => match check vtrue c pt (resolve_type_name M q (get (p_key q) o) pt) (get (p_key q) o) with
                 | EEnum => true | _ => false end
     end)%bool.
  Definition bad_count (ps : list plan) pt o : nat := length (filter (fun q => enum_bad q pt o) ps).

  Definition grows (p : plan) : Prop := forall d nul pt buf errs prop buf' errs',
    prj p d nul pt buf errs = Done prop buf' errs' -> exists n, errs' = (errs ++ repeat enum_error n)%list.

  Lemma repeat_add {A} (x : A) n m : repeat x (n + m) = (repeat x n ++ repeat x m)%list.
  Proof. induction n; cbn; congruence. Qed.

  Lemma with_map_grows o pt ps : Forall grows ps ->
    forall first buf errs prop first' buf' errs',
      with_map M vtrue prj o pt ps first buf errs = MDone prop first' buf' errs' ->
      exists n, errs' = (errs ++ repeat enum_error n)%list /\ (prop = false -> bad_count ps pt o <= n).
  Proof.
    induction ps as [|q ps IH]; intros F first buf errs prop first' buf' errs' E.
    - cbn in E. injection E as <- <- <- <-. exists 0. cbn. rewrite app_nil_r. split; [reflexivity|]. unfold bad_count. cbn. lia.
    - inversion F as [|? ? Hq Hps]; subst. specialize (IH Hps). cbn [with_map] in E.
      unfold bad_count. cbn [filter]. unfold enum_bad at 1.
      destruct (p_guard q) as [g|] eqn:G; [destruct pt as [n|e]|]; cbv beta iota in E; try discriminate E;
        [destruct (tmatches g n); cbv iota in E; [|cbn [andb]; eapply IH; exact E]|].
      all: cbn [andb].
      all: match type of E with match ?t with _ => _ end = _ => set (ch := t) in E end.
      all: assert (K : match p_cond q with
                  | Some c => match check vtrue c _ (resolve_type_name M q (get (p_key q) o) _) (get (p_key q) o) with EEnum => true | _ => false end
                  | None => false end = match ch with EEnum => true | _ => false end)
             by (unfold ch; destruct (p_cond q); reflexivity).
      all: rewrite K; clear K; destruct ch; cbv iota in E |- *; try discriminate E.
      (* enum error *)
      all: try (match type of E with context [(_ ++ [enum_error])%list] => idtac end;
        destruct (is_non_null (p_null q));
        [injection E as <- <- <- <-; exists 1; split; [reflexivity|discriminate]
        |destruct (IH _ _ _ _ _ _ _ E) as (k & -> & Hk); exists (S k); split;
         [rewrite <- app_assoc; reflexivity|intros Hp; specialize (Hk Hp); unfold bad_count in Hk; cbn [length]; lia]]).
      all: try (eapply IH; exact E).
      all: try (match type of E with (if is_non_null _ then _ else _) = _ => idtac end;
        destruct (is_non_null (p_null q));
        [injection E as <- <- <- <-; exists 0; split; [rewrite app_nil_r; reflexivity|discriminate]
        |eapply IH; exact E]).
      all: match type of E with match ?t with _ => _ end = _ => destruct t as [pr1 b1 e1|e1] eqn:R end; [|discriminate E].
      all: assert (Gr : exists k, e1 = (errs ++ repeat enum_error k)%list) by
        (destruct (p_val q); [|injection R as <- <- <-; exists 0; rewrite app_nil_r; reflexivity];
         destruct (p_typename q);
         [first [injection R as <- <- <-; exists 0; rewrite app_nil_r; reflexivity
                |destruct pt; [injection R as <- <- <-; exists 0; rewrite app_nil_r; reflexivity|discriminate R]]
         |destruct (get (p_key q) o); [exact (Hq _ _ _ _ _ _ _ _ R)|injection R as <- <- <-; exists 0; rewrite app_nil_r; reflexivity]]).
      all: destruct Gr as [k ->]; destruct (pr1 && is_non_null (p_null q))%bool;
        [injection E as <- <- <- <-; exists k; split; [reflexivity|discriminate]|].
      all: destruct (IH _ _ _ _ _ _ _ E) as (k2 & -> & Hk); exists (k + k2); split;
        [rewrite repeat_add, app_assoc; reflexivity|intros Hp; specialize (Hk Hp); unfold bad_count in Hk; lia].
  Qed.

  Lemma project_grows p : grows p.
  Proof.
    induction p as [f k ty nl g c v IHp] using plan_ind'. set (p := Plan f k ty nl g c v) in *.
    intros d. induction d as [|fbits|iz|un|bb|str|raw|l IH|o IH] using value_ind';
      intros nul pt buf errs prop buf' errs' E.
    1-7: cbn [project p] in E; injection E as <- <- <-; exists 0; rewrite app_nil_r; reflexivity.
    - cbn [project p] in E.
      match type of E with ?fx true l ?b errs = _ => set (go := fx) in E; revert E; generalize b as b0 end.
      intros b0. generalize true as first. revert errs b0.
      induction IH as [|x l Hx Hl IHl]; intros errs b first E.
      + cbn [go] in E. injection E as <- <- <-. exists 0. rewrite app_nil_r. reflexivity.
      + cbn [go] in E. fold go in E.
        match type of E with match ?t with _ => _ end = _ => destruct t as [px bx ex|ex] eqn:PX end; [|discriminate E].
        destruct (Hx _ _ _ _ _ _ _ PX) as [n ->].
        destruct (_ && _)%bool.
        * injection E as <- <- <-. exists n. reflexivity.
        * destruct (IHl _ _ _ E) as [m ->]. exists (n + m). rewrite repeat_add, app_assoc. reflexivity.
    - cbn [project p] in E. destruct v as [[sels|]|].
      + cbv zeta in E. fold (project ryu M vtrue) in E.
        match type of E with match ?t with _ => _ end = _ => destruct t as [pm fm bm em|em] eqn:PM end; [|discriminate E].
        destruct (with_map_grows _ _ _ (IHp _ eq_refl) _ _ _ _ _ _ _ PM) as (n & -> & _).
        destruct pm; injection E as <- <- <-; exists n; reflexivity.
      + injection E as <- <- <-. exists 0. rewrite app_nil_r. reflexivity.
      + injection E as <- <- <-. exists 0. rewrite app_nil_r. reflexivity.
  Qed.

  Lemma with_map_errs o pt ps first buf errs prop first' buf' errs' :
    with_map M vtrue prj o pt ps first buf errs = MDone prop first' buf' errs' ->
    exists n, errs' = (errs ++ repeat enum_error n)%list /\ (prop = false -> bad_count ps pt o <= n).
  Proof. apply with_map_grows. apply Forall_forall. intros. apply project_grows. Qed.
End E.
