From Coq Require Import String List Bool Arith Lia Permutation Relations.
From Verif Require Import StrUtil Ast CoerceModel CoerceProofs QplanModel CondModel NormModel NormSpec.
Import ListNotations.
Local Open Scope list_scope.

Section NselInd.
Variable P : nsel -> Prop.
Variable Hf : forall al n args dirs sub, Forall P sub -> P (NField al n args dirs sub).
Variable Hs : forall n dirs, P (NSpread n dirs).
Variable Hi : forall tc dirs sub, Forall P sub -> P (NInline tc dirs sub).
Fixpoint nsel_ind' (s : nsel) : P s :=
  let all := fix all (l : list nsel) : Forall P l :=
    match l with [] => Forall_nil _ | x :: l' => Forall_cons x (nsel_ind' x) (all l') end in
  match s with
  | NField al n args dirs sub => Hf al n args dirs sub (all sub)
  | NSpread n dirs => Hs n dirs
  | NInline tc dirs sub => Hi tc dirs sub (all sub)
  end.
End NselInd.

Lemma bind_ok {A B} (r : res A) (k : A -> res B) b : bind r k = Ok b -> exists a, r = Ok a /\ k a = Ok b.
Proof. destruct r; cbn; [eauto|discriminate]. Qed.
Lemma bind_err {A B} (r : res A) (k : A -> res B) e :
  bind r k = Err e -> r = Err e \/ exists a, r = Ok a /\ k a = Err e.
Proof. destruct r; cbn; intros H; [right; eauto|left; congruence]. Qed.

(** The inner loop of a pass is [each]. *)
Lemma each_ok k l out : each k l = Ok out ->
  exists outs, Forall2 (fun s o => k s = Ok o) l outs /\ out = concat outs.
Proof.
  revert out; induction l as [|s l IH]; cbn; intros out E.
  - injection E as <-; exists []; split; [constructor|reflexivity].
  - apply bind_ok in E as (a & Ea & E). apply bind_ok in E as (b & Eb & E). injection E as <-.
    destruct (IH _ Eb) as (outs & H & ->). exists (a :: outs); split; [constructor; auto|reflexivity].
Qed.
Lemma each_err k l e : each k l = Err e -> exists s, In s l /\ k s = Err e.
Proof.
  induction l as [|s l IH]; cbn; intros E; [discriminate|].
  apply bind_err in E as [E|(a & Ea & E)]; [exists s; auto|].
  apply bind_err in E as [E|(b & Eb & E)]; [|discriminate].
  destruct (IH E) as (x & Hx & Ex); exists x; auto.
Qed.
Lemma inline_sel_field m body ptc active al n args dirs sub :
  inline_sel m body ptc active (NField al n args dirs sub) =
  bind (each (inline_sel m body None active) sub) (fun sub' => Ok [NField al n args dirs sub']).
Proof. reflexivity. Qed.
Lemma inline_sel_inline m body ptc active tc dirs sub :
  inline_sel m body ptc active (NInline tc dirs sub) =
  bind (each (inline_sel m body tc active) sub) (fun sub' => Ok [NInline tc dirs sub']).
Proof. reflexivity. Qed.
Lemma in_flat_mentions n l : In n (flat_map mentions l) <-> exists s, In s l /\ In n (mentions s).
Proof. apply in_flat_map. Qed.

(** * Chains of spreads *)
Section Frags.
Context (m : fragments).
Notation E := (edge m).
Notation star := (clos_refl_trans string E).
Notation plus := (clos_trans string E).

Lemma star_plus a b c : star a b -> plus b c -> plus a c.
Proof.
  intros H; apply clos_rt_rt1n in H. induction H as [|x y z Hxy H IH]; auto.
  intros Hp; apply t_trans with y; [apply t_step; auto|auto].
Qed.
Lemma plus_star a b c : plus a b -> star b c -> plus a c.
Proof.
  intros Hp H; apply clos_rt_rtn1 in H. induction H as [|y z Hyz H IH]; auto.
  apply t_trans with y; [exact IH|apply t_step; auto].
Qed.
Lemma plus_rt a b : plus a b -> star a b.
Proof. induction 1; [apply rt_step; auto|eapply rt_trans; eauto]. Qed.

Lemma defined_in n : defined m n -> In n (map fst m).
Proof.
  intros (f & H). revert H. induction m as [|[k v] l IH]; cbn; [discriminate|].
  destruct (String.eqb_spec n k); auto.
Qed.
Lemma walk_link d n n' dirs' :
  kget n m = Some d -> fr_sels d = [NSpread n' dirs'] -> edge m n n'.
Proof. intros Hd Es; exists d; split; [exact Hd|]. rewrite Es; cbn; auto. Qed.

Lemma walk_ok left ptc n dirs n' dirs' d : walk m left ptc n dirs = Ok (n', dirs', d) ->
  kget n' m = Some d /\ star n n' /\
  (Acc (fun x y => edge m y x) n' -> Acc (fun x y => edge m y x) n).
Proof.
  revert n dirs; induction left as [|left IH]; intros n dirs; cbn [walk];
    (destruct (kget n m) as [d0|] eqn:Ed; [|discriminate]);
    (destruct (opt_is ptc (fr_tc d0) && empty dirs);
      [|intros H; injection H as <- <- <-; split; [exact Ed|split; [apply rt_refl|auto]]]);
    (destruct (fr_sels d0) as [|[ | nn nd | ] [|? ?]] eqn:Es;
      try (intros H; injection H as <- <- <-; split; [exact Ed|split; [apply rt_refl|auto]])).
  - discriminate.
  - intros H; apply IH in H as (H1 & H2 & H3). split; [exact H1|]. split.
    + apply rt_trans with nn; [apply rt_step; eapply walk_link; eauto|exact H2].
    + intros Ha; constructor; intros y (f & Ef & Hy). rewrite Ed in Ef; injection Ef as <-.
      rewrite Es in Hy; cbn in Hy; destruct Hy as [<-|[]]. auto.
Qed.
Lemma walk_err left ptc n dirs e : walk m left ptc n dirs = Err e ->
  (exists x, e = ENotFound x /\ ~ defined m x /\ star n x) \/ (exists x, e = ECyclic x /\ star n x).
Proof.
  revert n dirs; induction left as [|left IH]; intros n dirs; cbn [walk];
    (destruct (kget n m) as [d0|] eqn:Ed;
      [|intros H; injection H as <-; left; exists n; split; [reflexivity|]; split;
          [intros (f & Ef); congruence|apply rt_refl]]);
    (destruct (opt_is ptc (fr_tc d0) && empty dirs); [|discriminate]);
    (destruct (fr_sels d0) as [|[ | nn nd | ] [|? ?]] eqn:Es; try discriminate); intros H.
  - injection H as <-. right; exists n; split; [reflexivity|apply rt_refl].
  - assert (edge m n nn) as He by (eapply walk_link; eauto).
    apply IH in H as [(x & -> & Hx & Hs)|(x & -> & Hs)].
    + left; exists x; split; [reflexivity|]; split; [exact Hx|]. eapply rt_trans; [apply rt_step; exact He|exact Hs].
    + right; exists x; split; [reflexivity|]. eapply rt_trans; [apply rt_step; exact He|exact Hs].
Qed.
Lemma walk_cyclic left ptc n dirs x visited : walk m left ptc n dirs = Err (ECyclic x) ->
  NoDup visited -> Forall (fun v => defined m v /\ plus v n) visited -> length m <= length visited + left ->
  reaches_cycle m n.
Proof.
  revert n dirs visited; induction left as [|left IH]; intros n dirs visited; cbn [walk];
    (destruct (kget n m) as [d0|] eqn:Ed; [|discriminate]);
    (destruct (opt_is ptc (fr_tc d0) && empty dirs); [|discriminate]);
    (destruct (fr_sels d0) as [|[ | nn nd | ] [|? ?]] eqn:Es; try discriminate);
    intros H Hnd Hall Hlen;
    (destruct (in_dec string_dec n visited) as [Hin|Hin];
      [rewrite Forall_forall in Hall; destruct (Hall n Hin) as [_ Hp]; exists n; split; [apply rt_refl|exact Hp]|]).
  - exfalso. assert (length (n :: visited) <= length (map fst m)) as Hl.
    { apply NoDup_incl_length; [constructor; auto|].
      intros v [<-|Hv]; [apply defined_in; exists d0; auto|].
      rewrite Forall_forall in Hall; apply defined_in, (Hall v Hv). }
    rewrite map_length in Hl; cbn in Hl; lia.
  - assert (edge m n nn) as He by (eapply walk_link; eauto).
    assert (reaches_cycle m nn) as (c & Hc & Hcc).
    { eapply (IH nn nd (n :: visited)); [exact H|constructor; auto| |cbn; lia].
      constructor; [split; [exists d0; auto|apply t_step; exact He]|].
      eapply Forall_impl; [|exact Hall]. cbn; intros v [Hv Hp]; split; [exact Hv|].
      eapply t_trans; [exact Hp|apply t_step; exact He]. }
    exists c; split; [|exact Hcc]. eapply rt_trans; [apply rt_step; exact He|exact Hc].
Qed.

(** * Ok means that every chain of spreads ends *)
Notation ends := (Acc (fun x y => edge m y x)).
Lemma sel_ends body ptc active s out :
  (forall p a l o, body p a l = Ok o -> forall n, In n (flat_map mentions l) -> ends n) ->
  inline_sel m body ptc active s = Ok out -> forall n, In n (mentions s) -> ends n.
Proof.
  intros Hb. revert ptc out. induction s as [al fn args dirs sub IH|fn dirs|tc dirs sub IH] using nsel_ind';
    intros ptc out H n Hn.
  - rewrite inline_sel_field in H. apply bind_ok in H as (o & H & _). apply each_ok in H as (outs & H & _).
    cbn in Hn. apply in_flat_mentions in Hn as (s & Hs & Hn).
    rewrite Forall_forall in IH. clear - IH H Hs Hn.
    induction H as [|x y l l' Hxy H IHl]; [destruct Hs|].
    destruct Hs as [->|Hs]; [eapply IH; [left; reflexivity|exact Hxy|exact Hn]|].
    apply IHl; [|exact Hs]. intros z Hz; apply IH; right; exact Hz.
  - cbn in Hn; destruct Hn as [<-|[]]. cbn [inline_sel] in H. apply bind_ok in H as ([[n' dirs'] d] & Hw & H).
    apply walk_ok in Hw as (Hd & _ & Hacc). apply Hacc.
    assert (forall k, In k (flat_map mentions (fr_sels d)) -> ends k) as Hall.
    { destruct (existsb (String.eqb n') active); [discriminate|].
      destruct (opt_is ptc (fr_tc d) && empty dirs').
      - intros k Hk; eapply Hb; [exact H|exact Hk].
      - apply bind_ok in H as (o & H & _). intros k Hk; eapply Hb; [exact H|exact Hk]. }
    constructor; intros y (f & Ef & Hy). rewrite Hd in Ef; injection Ef as <-. auto.
  - rewrite inline_sel_inline in H. apply bind_ok in H as (o & H & _). apply each_ok in H as (outs & H & _).
    cbn in Hn. apply in_flat_mentions in Hn as (s & Hs & Hn).
    rewrite Forall_forall in IH. clear - IH H Hs Hn.
    induction H as [|x y l l' Hxy H IHl]; [destruct Hs|].
    destruct Hs as [->|Hs]; [eapply IH; [left; reflexivity|exact Hxy|exact Hn]|].
    apply IHl; [|exact Hs]. intros z Hz; apply IH; right; exact Hz.
Qed.
Lemma forall2_pick {A B} (R : A -> B -> Prop) l l' x : Forall2 R l l' -> In x l -> exists y, In y l' /\ R x y.
Proof. induction 1; cbn; [tauto|]. intros [<-|Hx]; [eauto|]. destruct (IHForall2 Hx) as (z & ? & ?); eauto. Qed.
Lemma forall2_back {A B} (R : A -> B -> Prop) l l' y : Forall2 R l l' -> In y l' -> exists x, In x l /\ R x y.
Proof. induction 1; cbn; [tauto|]. intros [<-|Hx]; [eauto|]. destruct (IHForall2 Hx) as (z & ? & ?); eauto. Qed.
Lemma sels_end fuel ptc active l out :
  inline_sels m fuel ptc active l = Ok out -> forall n, In n (flat_map mentions l) -> ends n.
Proof.
  revert ptc active l out; induction fuel as [|fuel IH]; cbn [inline_sels]; intros ptc active l out H n Hn; [discriminate|].
  apply each_ok in H as (outs & H & _). apply in_flat_mentions in Hn as (s & Hs & Hn).
  destruct (forall2_pick _ _ _ _ H Hs) as (o & _ & Ho).
  eapply sel_ends; [|exact Ho|exact Hn]. intros p a l' o' E. eapply IH; exact E.
Qed.
(** Every name in a list that was handled is defined. *)
Lemma sel_defined body ptc active s out :
  inline_sel m body ptc active s = Ok out -> forall n, In n (mentions s) -> defined m n.
Proof.
  revert ptc out. induction s as [al fn args dirs sub IH|fn dirs|tc dirs sub IH] using nsel_ind';
    intros ptc out H n Hn.
  1,3: rewrite ?inline_sel_field, ?inline_sel_inline in H; apply bind_ok in H as (o & H & _);
    apply each_ok in H as (outs & H & _); cbn in Hn; apply in_flat_mentions in Hn as (s & Hs & Hn);
    rewrite Forall_forall in IH; destruct (forall2_pick _ _ _ _ H Hs) as (o' & _ & Ho);
    eapply IH; [exact Hs|exact Ho|exact Hn].
  cbn in Hn; destruct Hn as [<-|[]]. cbn [inline_sel] in H. apply bind_ok in H as (r & Hw & _).
  destruct (length m); cbn [walk] in Hw; (destruct (kget fn m) as [f|] eqn:Ef; [exists f; exact Ef|discriminate]).
Qed.
Lemma sels_defined fuel ptc active l out :
  inline_sels m fuel ptc active l = Ok out -> forall n, In n (flat_map mentions l) -> defined m n.
Proof.
  destruct fuel; cbn [inline_sels]; intros H n Hn; [discriminate|].
  apply each_ok in H as (outs & H & _). apply in_flat_mentions in Hn as (s & Hs & Hn).
  destruct (forall2_pick _ _ _ _ H Hs) as (o & _ & Ho). eapply sel_defined; eauto.
Qed.

(** * Nothing is left *)
Lemma flat_mentions_concat outs : (forall o, In o outs -> flat_map mentions o = []) -> flat_map mentions (concat outs) = [].
Proof.
  induction outs as [|o outs IH]; cbn; auto. intros H.
  rewrite flat_map_app, (H o), IH; auto.
Qed.
Lemma sel_clean body ptc active s out :
  (forall p a l o, body p a l = Ok o -> flat_map mentions o = []) ->
  inline_sel m body ptc active s = Ok out -> flat_map mentions out = [].
Proof.
  intros Hb. revert ptc out. induction s as [al fn args dirs sub IH|fn dirs|tc dirs sub IH] using nsel_ind'; intros ptc out H.
  1,3: rewrite ?inline_sel_field, ?inline_sel_inline in H; apply bind_ok in H as (o & H & Ho); injection Ho as <-;
    apply each_ok in H as (outs & H & ->); cbn; rewrite app_nil_r; apply flat_mentions_concat; intros o Ho;
    destruct (forall2_back _ _ _ _ H Ho) as (s & Hs & Es); rewrite Forall_forall in IH;
    eapply IH; [exact Hs|exact Es].
  cbn [inline_sel] in H. apply bind_ok in H as ([[n' dirs'] d] & _ & H).
  destruct (existsb (String.eqb n') active); [discriminate|].
  destruct (opt_is ptc (fr_tc d) && empty dirs'); [eapply Hb; exact H|].
  apply bind_ok in H as (o & H & Ho); injection Ho as <-. cbn. rewrite app_nil_r. eapply Hb; exact H.
Qed.
Lemma sels_clean fuel ptc active l out : inline_sels m fuel ptc active l = Ok out -> flat_map mentions out = [].
Proof.
  revert ptc active l out; induction fuel as [|fuel IH]; cbn [inline_sels]; intros ptc active l out H; [discriminate|].
  apply each_ok in H as (outs & H & ->). apply flat_mentions_concat; intros o Ho.
  destruct (forall2_back _ _ _ _ H Ho) as (s & Hs & Es).
  eapply sel_clean; [|exact Es]. intros p a l' o' E. eapply IH; exact E.
Qed.

(** * Errors *)
(** [n] is spread, perhaps through other fragments, by one of [l]. *)
Definition reached (l : list string) (n : string) : Prop := exists k, In k l /\ star k n.
Definition blame (l : list string) (e : nerr) : Prop :=
  match e with
  | ENotFound n => ~ defined m n /\ reached l n
  | ECyclic n => exists k, In k l /\ reaches_cycle m k /\ star k n
  | _ => False
  end.
Lemma blame_incl l l' e : incl l l' -> blame l e -> blame l' e.
Proof.
  intros Hi. destruct e; cbn; auto.
  - intros [H (k & Hk & Hs)]; split; [exact H|exists k; auto].
  - intros (k & Hk & Hs); exists k; auto.
Qed.
Lemma blame_star n e l : (forall k, In k l -> star n k) -> blame l e -> blame [n] e.
Proof.
  intros Hk. destruct e; cbn; auto.
  - intros [H (k & Hin & Hs)]; split; [exact H|exists n; split; [left; reflexivity|eapply rt_trans; eauto]].
  - intros (k & Hin & (c & Hc & Hcc) & Hs). exists n; split; [left; reflexivity|]. split.
    + exists c; split; [|exact Hcc]. eapply rt_trans; [apply Hk; exact Hin|exact Hc].
    + eapply rt_trans; [apply Hk; exact Hin|exact Hs].
Qed.
Definition body_ok (room : nat) (body : option string -> list string -> list nsel -> res (list nsel)) : Prop :=
  forall ptc active l e, body ptc active l = Err e ->
    NoDup active -> Forall (fun a => defined m a) active -> length m < room + length active ->
    (forall a k, In a active -> In k (flat_map mentions l) -> plus a k) ->
    blame (flat_map mentions l) e.
Lemma sel_err body room ptc active s e :
  body_ok room body -> inline_sel m body ptc active s = Err e ->
  NoDup active -> Forall (fun a => defined m a) active -> length m < S room + length active ->
  (forall a k, In a active -> In k (mentions s) -> plus a k) -> blame (mentions s) e.
Proof.
  intros Hb. revert ptc. induction s as [al fn args dirs sub IH|fn dirs|tc dirs sub IH] using nsel_ind';
    intros ptc H Hnd Hdef Hlen Hact.
  1,3: rewrite ?inline_sel_field, ?inline_sel_inline in H; apply bind_err in H as [H|(o & _ & H)]; [|discriminate];
    apply each_err in H as (s & Hs & H); rewrite Forall_forall in IH; cbn [mentions];
    apply blame_incl with (mentions s); [intros k Hk; apply in_flat_map; eauto|];
    eapply IH; [exact Hs|exact H|exact Hnd|exact Hdef|exact Hlen|];
    intros a k Ha Hk; apply Hact; [exact Ha|]; cbn; apply in_flat_map; eauto.
  cbn [inline_sel mentions] in *. apply bind_err in H as [H|([[n' dirs'] d] & Hw & H)].
  - pose proof (walk_err _ _ _ _ _ H) as [(x & -> & Hx & Hs)|(x & -> & Hs)]; cbn.
    + split; [exact Hx|exists fn; split; [left; reflexivity|exact Hs]].
    + exists fn; split; [left; reflexivity|]. split; [|exact Hs].
      eapply (walk_cyclic _ _ _ _ _ []); [exact H|constructor|constructor|cbn; lia].
  - apply walk_ok in Hw as (Hd & Hs & _).
    destruct (existsb (String.eqb n') active) eqn:Ex.
    + injection H as <-. apply existsb_exists in Ex as (a & Ha & Ea). apply String.eqb_eq in Ea; subst a.
      cbn. exists fn; split; [left; reflexivity|]. split; [|exact Hs].
      exists n'; split; [exact Hs|]. eapply plus_star; [apply Hact; [exact Ha|left; reflexivity]|exact Hs].
    + assert (forall k, In k (flat_map mentions (fr_sels d)) -> edge m n' k) as Hedge by (intros k Hk; exists d; auto).
      assert (forall p, body p (n' :: active) (fr_sels d) = Err e -> blame [fn] e) as Hgo.
      { intros p Hp. apply blame_star with (flat_map mentions (fr_sels d)).
        - intros k Hk. eapply rt_trans; [exact Hs|apply rt_step; apply Hedge; exact Hk].
        - eapply Hb; [exact Hp| | | |].
          + constructor; [|exact Hnd]. intros Hin.
            assert (existsb (String.eqb n') active = true) as C by (apply existsb_exists; exists n'; split; [exact Hin|apply String.eqb_refl]).
            congruence.
          + constructor; [exists d; exact Hd|exact Hdef].
          + cbn [length]; lia.
          + intros a k [<-|Ha] Hk; [apply t_step, Hedge; exact Hk|].
            eapply plus_star; [apply Hact; [exact Ha|left; reflexivity]|].
            eapply rt_trans; [exact Hs|apply rt_step, Hedge; exact Hk]. }
      destruct (opt_is ptc (fr_tc d) && empty dirs'); [eapply Hgo; exact H|].
      apply bind_err in H as [H|(o & _ & H)]; [|discriminate]. eapply Hgo; exact H.
Qed.
Lemma sels_err fuel : body_ok fuel (inline_sels m fuel).
Proof.
  induction fuel as [|fuel IH]; intros ptc active l e H Hnd Hdef Hlen Hact.
  - exfalso. assert (length active <= length (map fst m)) as Hl.
    { apply NoDup_incl_length; [exact Hnd|]. intros a Ha. rewrite Forall_forall in Hdef. apply defined_in; auto. }
    rewrite map_length in Hl; lia.
  - cbn [inline_sels] in H. apply each_err in H as (s & Hs & H).
    apply blame_incl with (mentions s); [intros k Hk; apply in_flat_map; eauto|].
    eapply sel_err; [exact IH|exact H|exact Hnd|exact Hdef|exact Hlen|].
    intros a k Ha Hk; apply Hact; [exact Ha|apply in_flat_map; eauto].
Qed.
End Frags.

(** * Documents *)
Lemma each_def_ok k l out : each_def k l = Ok out -> Forall2 (fun d o => k d = Ok o) l out.
Proof.
  revert out; induction l as [|s l IH]; cbn; intros out E; [injection E as <-; constructor|].
  apply bind_ok in E as (a & Ea & E). apply bind_ok in E as (b & Eb & E). injection E as <-. constructor; auto.
Qed.
Lemma each_def_err k l e : each_def k l = Err e -> exists d, In d l /\ k d = Err e.
Proof.
  induction l as [|s l IH]; cbn; intros E; [discriminate|].
  apply bind_err in E as [E|(a & Ea & E)]; [exists s; auto|].
  apply bind_err in E as [E|(b & Eb & E)]; [|discriminate].
  destruct (IH E) as (x & Hx & Ex); exists x; auto.
Qed.
Lemma fragment_map_in ds n f : kget n (fragment_map ds) = Some f -> In (NFrag n (fr_tc f) (fr_sels f)) ds.
Proof.
  unfold fragment_map. assert (forall acc, kget n (fold_left (fun m d => match d with NFrag k t s => kput k {| fr_tc := t; fr_sels := s |} m | NOp _ _ _ => m end) ds acc) = Some f ->
    In (NFrag n (fr_tc f) (fr_sels f)) ds \/ kget n acc = Some f) as H.
  { induction ds as [|[k nm s|k t s] ds IH]; cbn; intros acc H; [right; exact H| |].
    - destruct (IH _ H); auto.
    - destruct (IH _ H) as [Hi|Hi]; [auto|]. rewrite kget_kput in Hi.
      destruct (String.eqb_spec n k) as [->|Hne]; [injection Hi as <-; cbn; auto|auto]. }
  intros E. destruct (H _ E) as [Hi|Hi]; [exact Hi|discriminate].
Qed.
Definition def_tc (d : ndef) : option string := match d with NOp _ _ _ => None | NFrag _ t _ => Some t end.
Lemma inline_def_ok m d d' : inline_def m d = Ok d' ->
  inline_sels m (S (length m)) (def_tc d) [] (sels_of d) = Ok (sels_of d').
Proof.
  destruct d; unfold inline_def; intros H; apply bind_ok in H as (o & H & E); injection E as <-; exact H.
Qed.
Lemma inline_def_err m d e : inline_def m d = Err e ->
  inline_sels m (S (length m)) (def_tc d) [] (sels_of d) = Err e.
Proof.
  destruct d; unfold inline_def; intros H; (apply bind_err in H as [H|(o & _ & H)]; [exact H|discriminate]).
Qed.

Lemma ends_no_cycle m n : Acc (fun x y => edge m y x) n -> ~ on_cycle m n.
Proof.
  intros Ha. induction Ha as [n _ IH]. intros Hc.
  assert (exists k, edge m n k /\ clos_refl_trans string (edge m) k n) as (k & Hk & Hs).
  { unfold on_cycle in Hc. apply clos_trans_t1n in Hc. inversion Hc as [? He|k ? He Hp]; subst.
    - exists n; split; [exact He|apply rt_refl].
    - exists k; split; [exact He|]. apply clos_t1n_trans in Hp. apply plus_rt; exact Hp. }
  apply (IH k Hk). eapply star_plus; [exact Hs|apply t_step; exact Hk].
Qed.

Lemma inline_ok ds out : inline_doc ds = Ok out ->
  (forall n, doc_mentions ds n -> defined (fragment_map ds) n) /\
  (forall n, ~ on_cycle (fragment_map ds) n) /\
  (forall n, ~ doc_mentions out n).
Proof.
  intros H; apply each_def_ok in H. split; [|split].
  - intros n (d & Hd & Hn). destruct (forall2_pick _ _ _ _ H Hd) as (o & _ & Ho).
    apply inline_def_ok in Ho. eapply sels_defined; eauto.
  - intros n Hc. assert (exists k, edge (fragment_map ds) n k /\ clos_refl_trans string (edge (fragment_map ds)) k n) as (k & Hk & Hs).
    { unfold on_cycle in Hc. apply clos_trans_t1n in Hc. inversion Hc as [? He|k ? He Hp]; subst.
      - exists n; split; [exact He|apply rt_refl].
      - exists k; split; [exact He|]. apply clos_t1n_trans in Hp. apply plus_rt; exact Hp. }
    pose proof Hk as (f & Ef & Hin). apply fragment_map_in in Ef.
    destruct (forall2_pick _ _ _ _ H Ef) as (o & _ & Ho). apply inline_def_ok in Ho.
    assert (on_cycle (fragment_map ds) k) as Hck by (eapply star_plus; [exact Hs|apply t_step; exact Hk]).
    revert Hck. apply ends_no_cycle. eapply sels_end; [exact Ho|exact Hin].
  - intros n (d & Hd & Hn). destruct (forall2_back _ _ _ _ H Hd) as (o & _ & Ho).
    apply inline_def_ok in Ho. apply sels_clean in Ho. rewrite Ho in Hn; exact Hn.
Qed.
Lemma inline_err ds e : inline_doc ds = Err e ->
  (exists n, e = ENotFound n /\ ~ defined (fragment_map ds) n /\ doc_mentions ds n) \/
  (exists n c, e = ECyclic n /\ doc_mentions ds n /\ on_cycle (fragment_map ds) c).
Proof.
  intros H; apply each_def_err in H as (d & Hd & H). apply inline_def_err in H.
  assert (forall k n, In k (flat_map mentions (sels_of d)) -> clos_refl_trans string (edge (fragment_map ds)) k n -> doc_mentions ds n) as Hm.
  { intros k n Hk Hs. apply clos_rt_rtn1 in Hs. inversion Hs as [|y z (f & Ef & Hin) _]; subst; [exists d; auto|].
    apply fragment_map_in in Ef. eexists; split; [exact Ef|exact Hin]. }
  assert (blame (fragment_map ds) (flat_map mentions (sels_of d)) e) as Hbl.
  { eapply (sels_err (fragment_map ds)); [exact H|constructor|constructor|cbn; lia|intros a k []]. }
  clear H; rename Hbl into H.
  destruct e; cbn in H; try contradiction.
  - destruct H as (Hnd & k & Hk & Hs). left; exists fragment; split; [reflexivity|]; split; [exact Hnd|]. eapply Hm; eauto.
  - destruct H as (k & Hk & (c & Hc & Hcc) & Hs). right; exists fragment, c. split; [reflexivity|]. split; [eapply Hm; eauto|exact Hcc].
Qed.
Lemma inline_ok_iff ds : (exists out, inline_doc ds = Ok out) <->
  (forall n, doc_mentions ds n -> defined (fragment_map ds) n) /\ (forall n, ~ on_cycle (fragment_map ds) n).
Proof.
  split.
  - intros (out & H). apply inline_ok in H as (H1 & H2 & _). auto.
  - intros (H1 & H2). destruct (inline_doc ds) as [out|e] eqn:E; [eauto|].
    apply inline_err in E as [(n & _ & Hn & Hd)|(n & c & _ & _ & Hc)]; exfalso; [exact (Hn (H1 n Hd))|exact (H2 c Hc)].
Qed.
