From Coq Require Import String Ascii List NArith Arith Bool Lia ZifyBool ZifyN.
From Verif Require Import StrUtil Utf8 StreamModel StreamSpec.
Import ListNotations.
Local Open Scope string_scope.
Local Open Scope bool_scope.

(** ** take / drop / find *)
Lemma length_app a b : String.length (a ++ b) = String.length a + String.length b.
Proof. induction a; simpl; lia. Qed.

Lemma take_drop n s : take n s ++ drop n s = s.
Proof. revert s; induction n as [|n IH]; intros [|c s]; simpl; try reflexivity. rewrite IH. reflexivity. Qed.

Lemma take_app_len a b : take (String.length a) (a ++ b) = a.
Proof. induction a; simpl; [destruct b; reflexivity|congruence]. Qed.

Lemma drop_app_len a b : drop (String.length a) (a ++ b) = b.
Proof. induction a; simpl; [destruct b; reflexivity|assumption]. Qed.

Lemma drop_app_add a n b : drop (String.length a + n) (a ++ b) = drop n b.
Proof. induction a; simpl; auto. Qed.

Lemma drop_drop n m s : drop n (drop m s) = drop (m + n) s.
Proof.
  revert s; induction m as [|m IH]; intros s; simpl; [destruct s; reflexivity|].
  destruct s; [destruct n; reflexivity|apply IH].
Qed.

Lemma take_app_le n a b : n <= String.length a -> take n (a ++ b) = take n a.
Proof.
  revert a; induction n as [|n IH]; intros [|c a] H; simpl in *; try reflexivity; try lia.
  rewrite IH by lia. reflexivity.
Qed.

Lemma drop_app_le n a b : n <= String.length a -> drop n (a ++ b) = drop n a ++ b.
Proof.
  revert a; induction n as [|n IH]; intros [|c a] H; simpl in *; try reflexivity; try lia.
  apply IH. lia.
Qed.

Lemma drop_length n s : String.length (drop n s) = String.length s - n.
Proof.
  revert s; induction n as [|n IH]; intros [|c s]; simpl; try reflexivity.
  apply IH.
Qed.

Lemma starts_with_app p s x : starts_with p s = true -> starts_with p (s ++ x) = true.
Proof.
  revert s; induction p as [|a p IH]; intros [|b s]; simpl; try discriminate; try reflexivity.
  intro H. apply andb_prop in H. destruct H as [H1 H2]. rewrite H1. simpl. auto.
Qed.

Lemma starts_with_self p x : starts_with p (p ++ x) = true.
Proof. induction p; simpl; [reflexivity|]. rewrite Ascii.eqb_refl. assumption. Qed.

Lemma starts_with_inv p s : starts_with p s = true -> exists t, s = p ++ t.
Proof.
  revert s; induction p as [|a p IH]; intros s; simpl.
  - intros _. exists s. reflexivity.
  - destruct s as [|b s]; [discriminate|]. intro H. apply andb_prop in H. destruct H as [H1 H2].
    apply Ascii.eqb_eq in H1. destruct (IH s H2) as [t ->]. subst. exists t. reflexivity.
Qed.

Lemma starts_with_length p s : starts_with p s = true -> String.length p <= String.length s.
Proof. intro H. destruct (starts_with_inv _ _ H) as [t ->]. rewrite length_app. lia. Qed.

(** If a longer text starts with [p] and [s] is long enough, [s] does. *)
Lemma starts_with_app_short p s x :
  String.length p <= String.length s -> starts_with p (s ++ x) = starts_with p s.
Proof.
  revert s; induction p as [|a p IH]; intros [|b s] H; simpl in *; try reflexivity; try lia.
  rewrite IH by lia. reflexivity.
Qed.

Lemma find_sub_app d s x k : find_sub d s = Some k -> find_sub d (s ++ x) = Some k.
Proof.
  revert k; induction s as [|c s IH]; intros k.
  - simpl. destruct (starts_with d "") eqn:E; [|discriminate]. intro H; inversion H; subst.
    destruct d; [|discriminate]. destruct x; reflexivity.
  - cbn [find_sub append]. destruct (starts_with d (String c s)) eqn:E.
    + intro H. change (String c (s ++ x)) with (String c s ++ x).
      rewrite (starts_with_app _ _ x E). assumption.
    + destruct (find_sub d s) as [j|] eqn:F; [|discriminate]. simpl. intro H; inversion H; subst.
      destruct (starts_with d (String c (s ++ x))) eqn:E2.
      * exfalso. change (String c (s ++ x)) with (String c s ++ x) in E2.
        rewrite starts_with_app_short in E2; [congruence|].
        clear IH E E2 H. revert d j F. induction s as [|c' s IH]; intros d j F.
        -- simpl in F. destruct (starts_with d "") eqn:E; [|discriminate].
           apply starts_with_length in E. simpl in *. lia.
        -- cbn [find_sub] in F. destruct (starts_with d (String c' s)) eqn:E.
           ++ apply starts_with_length in E. simpl in *. lia.
           ++ destruct (find_sub d s) eqn:G; [|discriminate]. specialize (IH d n G). simpl in *. lia.
      * rewrite (IH j eq_refl). reflexivity.
Qed.

Lemma find_sub_some d s k :
  find_sub d s = Some k -> exists a b, s = a ++ d ++ b /\ String.length a = k.
Proof.
  revert k; induction s as [|c s IH]; intros k; cbn [find_sub].
  - destruct (starts_with d "") eqn:E; [|discriminate]. intro H; inversion H; subst.
    apply starts_with_inv in E. destruct E as [t E]. exists "", t. auto.
  - destruct (starts_with d (String c s)) eqn:E.
    + intro H; inversion H; subst. apply starts_with_inv in E. destruct E as [t E]. exists "", t. auto.
    + destruct (find_sub d s) as [j|]; [|discriminate]. simpl. intro H; inversion H; subst.
      destruct (IH j eq_refl) as (a & b & -> & Ha). exists (String c a), b. simpl. auto.
Qed.

Lemma find_sub_bound d s k : find_sub d s = Some k -> k + String.length d <= String.length s.
Proof.
  intro H. destruct (find_sub_some _ _ _ H) as (a & b & -> & Ha). rewrite !length_app. lia.
Qed.

Lemma find_sub_none_prefix d s x : find_sub d (s ++ x) = None -> find_sub d s = None.
Proof. intro H. destruct (find_sub d s) eqn:E; [|reflexivity]. apply (find_sub_app _ _ x) in E. congruence. Qed.

Lemma find_char_app c s x k : find_char c s = Some k -> find_char c (s ++ x) = Some k.
Proof.
  revert k; induction s as [|d s IH]; intros k; simpl; [discriminate|].
  destruct (Ascii.eqb c d); [auto|]. destruct (find_char c s); [|discriminate].
  intro H. rewrite (IH n eq_refl). assumption.
Qed.

Lemma find_char_bound c s k : find_char c s = Some k -> k < String.length s.
Proof.
  revert k; induction s as [|d s IH]; intros k; simpl; [discriminate|].
  destruct (Ascii.eqb c d); [intro H; inversion H; lia|].
  destruct (find_char c s); [|discriminate]. intro H. inversion H; subst. specialize (IH n eq_refl). lia.
Qed.

(** ** The outer loop, for any way of cutting *)
Section MachineProofs.
  Variable resp : Type.
  Variable limit : N.
  Variable state : Type.
  Variable cut : state -> string -> option (state * string * list (item resp) * bool).

  (** Buffers whose cuts do not depend on what comes later. *)
  Variable settled : string -> Prop.

  Hypothesis cut_shrinks : forall st buf st' rest items fin,
    cut st buf = Some (st', rest, items, fin) -> String.length rest < String.length buf.
  Hypothesis cut_settled : forall st buf st' rest items fin,
    settled buf -> cut st buf = Some (st', rest, items, fin) -> settled rest.
  Hypothesis cut_stable : forall st buf x st' rest items fin,
    settled buf -> cut st buf = Some (st', rest, items, fin) ->
    exists rest2, cut st (buf ++ x) = Some (st', rest2, items, fin) /\
                  (fin = false -> rest2 = rest ++ x).

  Notation drain := (drain resp state cut).
  Notation drain_loop := (drain_loop resp state cut).
  Notation run := (run resp limit state cut).

  Lemma drain_loop_fuel : forall n m st buf,
    String.length buf <= n -> String.length buf <= m -> drain_loop n st buf = drain_loop m st buf.
  Proof using cut_shrinks.
    clear cut_stable cut_settled settled.
    induction n as [|n IH]; intros m st buf Hn Hm.
    - destruct m; [reflexivity|]. simpl.
      destruct (cut st buf) as [[[[st' rest] items] fin]|] eqn:E; [|reflexivity].
      apply cut_shrinks in E. lia.
    - destruct m as [|m]; simpl;
        destruct (cut st buf) as [[[[st' rest] items] fin]|] eqn:E; try reflexivity;
        apply cut_shrinks in E; [lia|].
      destruct fin; [reflexivity|]. rewrite (IH m) by lia. reflexivity.
  Qed.

  Lemma drain_step st buf :
    drain st buf =
    match cut st buf with
    | None => ([], Some (st, buf))
    | Some (st', rest, items, fin) =>
        if fin then (items, None)
        else ((items ++ fst (drain st' rest))%list, snd (drain st' rest))
    end.
  Proof using cut_shrinks.
    clear cut_stable cut_settled settled.
    unfold StreamModel.drain. destruct (String.length buf) eqn:L; simpl;
      destruct (cut st buf) as [[[[st' rest] items] fin]|] eqn:E; try reflexivity;
      pose proof (cut_shrinks _ _ _ _ _ _ E) as Hs; [lia|].
    destruct fin; [reflexivity|].
    rewrite (drain_loop_fuel n (String.length rest)) by lia. reflexivity.
  Qed.

  Lemma buf_ind (P : state -> string -> Prop) :
    (forall st buf, (forall st' b, String.length b < String.length buf -> P st' b) -> P st buf) ->
    forall st buf, P st buf.
  Proof.
    intros H st buf. assert (A : forall n st b, String.length b < n -> P st b).
    { induction n; intros st0 b Hb; [lia|]. apply H. intros. apply IHn. lia. }
    apply (A (S (String.length buf))). lia.
  Qed.

  Lemma drain_rest st buf : forall st' rest,
    snd (drain st buf) = Some (st', rest) ->
    (settled buf -> settled rest) /\ String.length rest <= String.length buf /\ cut st' rest = None.
  Proof.
    induction st, buf as [st buf IH] using buf_ind. intros st' rest.
    rewrite drain_step. destruct (cut st buf) as [[[[st1 r1] items] fin]|] eqn:E.
    - destruct fin; [discriminate|]. simpl. intro H.
      pose proof (cut_shrinks _ _ _ _ _ _ E) as Hs.
      destruct (IH st1 r1 Hs _ _ H) as (A & B & C). split; [|split; [lia|assumption]].
      intro. apply A. eapply cut_settled; eassumption.
    - simpl. intro H. inversion H; subst. auto.
  Qed.

  Lemma drain_app st buf : settled buf -> forall x,
    drain st (buf ++ x) =
    match snd (drain st buf) with
    | None => (fst (drain st buf), None)
    | Some (st', rest) =>
        ((fst (drain st buf) ++ fst (drain st' (rest ++ x)))%list, snd (drain st' (rest ++ x)))
    end.
  Proof.
    induction st, buf as [st buf IH] using buf_ind. intros Hset x.
    rewrite (drain_step st buf). destruct (cut st buf) as [[[[st1 r1] items] fin]|] eqn:E.
    - pose proof (cut_shrinks _ _ _ _ _ _ E) as Hs.
      destruct (cut_stable _ _ x _ _ _ _ Hset E) as (r2 & E2 & Hr2).
      rewrite drain_step, E2. destruct fin; [reflexivity|]. rewrite (Hr2 eq_refl).
      rewrite (IH st1 r1 Hs (cut_settled _ _ _ _ _ _ Hset E) x). simpl.
      destruct (snd (drain st1 r1)) as [[st2 r3]|]; simpl; [rewrite app_assoc|]; reflexivity.
    - cbn [fst snd]. rewrite app_nil_l. destruct (drain st (buf ++ x)); reflexivity.
  Qed.

  (** The result of a whole body given at once. *)
  Definition whole (st : state) (bytes : string) : run_result resp :=
    (fst (drain st bytes), match snd (drain st bytes) with None => true | Some _ => false end).

  (** Every chunk but the last keeps the buffer settled. *)
  Fixpoint chunks_settled (frames : list frame) : Prop :=
    match frames with
    | [] => True
    | [_] => True
    | f :: fr => (forall b, settled b -> settled (b ++ data_of f)) /\ chunks_settled fr
    end.

  Lemma drain_idle st buf : cut st buf = None -> drain st buf = ([], Some (st, buf)).
  Proof using cut_shrinks. intro H. rewrite drain_step, H. reflexivity. Qed.

  Lemma fold_nil_bytes fr : bytes_of fr = fold_right append "" (map data_of fr).
  Proof. reflexivity. Qed.

  Lemma run_eq st buf frames :
    run st buf frames =
    match snd (drain st buf) with
    | None => (fst (drain st buf), true)
    | Some (st', rest) =>
        emit resp (fst (drain st buf))
          match frames with
          | [] => ([], false)
          | FData x :: fr =>
              if (limit <? N.of_nat (String.length (rest ++ x)))%N then ([inr EBufferLimit], true)
              else run st' (rest ++ x) fr
          | FTrailers :: fr => run st' rest fr
          | FError :: _ => ([inr EStreamRead], true)
          end
    end.
  Proof. destruct frames; reflexivity. Qed.

  Lemma bytes_cons f fr : bytes_of (f :: fr) = data_of f ++ bytes_of fr.
  Proof. reflexivity. Qed.

  (** Chunk independence: without a read error, either the buffer limit was hit after a
      prefix of the reference items, or the result is the reference result. *)
  Theorem run_reference : forall frames st buf,
    no_read_error frames = true ->
    (frames <> [] -> settled buf) -> chunks_settled frames ->
    run st buf frames = whole st (buf ++ bytes_of frames) \/
    exists pre post,
      run st buf frames = ((pre ++ [inr EBufferLimit])%list, true) /\
      fst (whole st (buf ++ bytes_of frames)) = (pre ++ post)%list.
  Proof.
    induction frames as [|f fr IH]; intros st buf Hne Hset Hch.
    - left. rewrite run_eq. unfold bytes_of. simpl. rewrite string_app_nil_r. unfold whole.
      destruct (snd (drain st buf)) as [[st' rest]|] eqn:E; [|reflexivity].
      unfold emit. simpl. rewrite app_nil_r. reflexivity.
    - specialize (Hset ltac:(discriminate)).
      rewrite run_eq, bytes_cons. unfold whole.
      rewrite (drain_app st buf Hset (data_of f ++ bytes_of fr)).
      destruct (snd (drain st buf)) as [[st' rest]|] eqn:E; [|left; reflexivity].
      destruct (drain_rest _ _ _ _ E) as (A & B & C). specialize (A Hset).
      assert (Hch' : chunks_settled fr) by (destruct fr; [exact I|apply Hch]).
      assert (Hset' : forall b, settled b -> fr <> [] -> settled (b ++ data_of f)).
      { intros b Hb Hfr. destruct fr; [congruence|]. apply Hch. assumption. }
      cbn [fst snd].
      assert (HH : forall y, y = data_of f ->
                 run st' (rest ++ y) fr = whole st' (rest ++ y ++ bytes_of fr) \/
                 exists pre post,
                   run st' (rest ++ y) fr = ((pre ++ [inr EBufferLimit])%list, true) /\
                   fst (whole st' (rest ++ y ++ bytes_of fr)) = (pre ++ post)%list).
      { intros y ->.
        rewrite <- string_app_assoc. apply IH; [|intro; apply Hset'; assumption|assumption].
        cbn [no_read_error forallb] in Hne. apply andb_prop in Hne. apply Hne. }
      destruct f as [x| |]; [| |cbn in Hne; discriminate].
      + cbn [data_of] in *.
        destruct (limit <? N.of_nat (String.length (rest ++ x)))%N.
        { right. exists (fst (drain st buf)), (fst (drain st' (rest ++ x ++ bytes_of fr))).
          split; reflexivity. }
        specialize (HH x eq_refl). destruct HH as [HH|(pre & post & H1 & H2)].
        * left. rewrite HH. unfold whole, emit. cbn [fst snd]. reflexivity.
        * right. exists (fst (drain st buf) ++ pre)%list, post. rewrite H1. unfold emit. cbn [fst snd].
          rewrite app_assoc. split; [reflexivity|]. unfold whole in H2. cbn [fst] in H2. rewrite H2.
          apply app_assoc.
      + cbn [data_of] in *. specialize (HH "" eq_refl). rewrite string_app_nil_r in HH.
        change ("" ++ bytes_of fr) with (bytes_of fr) in *.
        destruct HH as [HH|(pre & post & H1 & H2)].
        * left. rewrite HH. unfold whole, emit. cbn [fst snd]. reflexivity.
        * right. exists (fst (drain st buf) ++ pre)%list, post. rewrite H1. unfold emit. cbn [fst snd].
          rewrite app_assoc. split; [reflexivity|]. unfold whole in H2. cbn [fst] in H2. rewrite H2.
          apply app_assoc.
  Qed.
End MachineProofs.

(** A read error ends the stream and is reported after what was delivered before. *)
Lemma run_read_error resp limit state cut : forall frames st buf more,
  run resp limit state cut st buf (frames ++ FError :: more) =
  let r := run resp limit state cut st buf frames in
  if snd r then r else emit resp (fst r) ([inr EStreamRead], true).
Proof.
  induction frames as [|f fr IH]; intros st buf more.
  - simpl. destruct (snd (drain resp state cut st buf)) as [[st' rest]|]; [|reflexivity].
    unfold emit. simpl. rewrite app_nil_r. reflexivity.
  - cbn [app]. simpl. destruct (snd (drain resp state cut st buf)) as [[st' rest]|]; [|reflexivity].
    destruct f as [x| |].
    + destruct (limit <? N.of_nat (String.length (rest ++ x)))%N; [reflexivity|].
      rewrite IH. cbv zeta. unfold emit. cbn [fst snd].
      destruct (snd (run resp limit state cut st' (rest ++ x) fr)) eqn:Er; cbn [fst snd];
        [rewrite Er|rewrite app_assoc]; reflexivity.
    + rewrite IH. cbv zeta. unfold emit. cbn [fst snd].
      destruct (snd (run resp limit state cut st' rest fr)) eqn:Er; cbn [fst snd];
        [rewrite Er|rewrite app_assoc]; reflexivity.
    + reflexivity.
Qed.

(** ** Server-sent events *)
Lemma sse_boundary_step a b u :
  find_sse_event_boundary (String a (String b u)) =
  if Ascii.eqb a CR && Ascii.eqb b LF && starts_with crlf u then Some 4
  else if Ascii.eqb a LF && Ascii.eqb b LF then Some 2
  else option_map S (find_sse_event_boundary (String b u)).
Proof. reflexivity. Qed.

Lemma sse_boundary_app s x n :
  find_sse_event_boundary s = Some n -> find_sse_event_boundary (s ++ x) = Some n.
Proof.
  revert n; induction s as [|a t IH]; intros n; [discriminate|].
  destruct t as [|b u]; [discriminate|]. cbn [append]. rewrite !sse_boundary_step.
  destruct (Ascii.eqb a CR) eqn:Ea; cbn [andb].
  - apply Ascii.eqb_eq in Ea. subst a. change (Ascii.eqb CR LF) with false. cbn [andb].
    destruct (Ascii.eqb b LF) eqn:Eb; cbn [andb].
    + destruct (starts_with crlf u) eqn:Eu.
      * rewrite (starts_with_app _ _ x Eu). auto.
      * destruct (starts_with crlf (u ++ x)) eqn:Eux.
        -- intro H. exfalso. apply Ascii.eqb_eq in Eb. subst b.
           destruct u as [|c u]; [discriminate|]. destruct u as [|d u].
           ++ unfold crlf in Eux. cbn [append starts_with] in Eux. apply andb_prop in Eux.
              destruct Eux as [Ec _]. apply Ascii.eqb_eq in Ec. subst c.
              discriminate.
           ++ change (String c (String d u) ++ x) with (String c (String d (u ++ x))) in Eux.
              unfold crlf in Eu, Eux. cbn [starts_with] in Eu, Eux. congruence.
        -- destruct (find_sse_event_boundary (String b u)) as [m|]; [|discriminate].
           intro H. change (String b (u ++ x)) with (String b u ++ x). rewrite (IH m eq_refl). assumption.
    + destruct (find_sse_event_boundary (String b u)) as [m|]; [|discriminate].
      intro H. change (String b (u ++ x)) with (String b u ++ x). rewrite (IH m eq_refl). assumption.
  - destruct (Ascii.eqb a LF && Ascii.eqb b LF); [auto|].
    destruct (find_sse_event_boundary (String b u)) as [m|]; [|discriminate].
    intro H. change (String b (u ++ x)) with (String b u ++ x). rewrite (IH m eq_refl). assumption.
Qed.

Lemma sse_boundary_bound s n :
  find_sse_event_boundary s = Some n -> 2 <= n <= String.length s.
Proof.
  revert n; induction s as [|a t IH]; intros n; [discriminate|].
  destruct t as [|b u]; [discriminate|]. rewrite sse_boundary_step.
  destruct (Ascii.eqb a CR && Ascii.eqb b LF && starts_with crlf u) eqn:E1.
  - intro H; inversion H; subst. apply andb_prop in E1. destruct E1 as [_ E1].
    apply starts_with_length in E1. simpl in *. lia.
  - destruct (Ascii.eqb a LF && Ascii.eqb b LF); [intro H; inversion H; simpl; lia|].
    destruct (find_sse_event_boundary (String b u)) as [m|]; [|discriminate].
    intro H. inversion H; subst. specialize (IH m eq_refl). simpl in *. lia.
Qed.

Section SseProofs.
  Variable resp : Type.
  Variable deser : string -> option resp.
  Variable limit : N.
  Notation cut := (sse_cut resp deser).

  Lemma sse_cut_shrinks : forall st buf st' rest items fin,
    cut st buf = Some (st', rest, items, fin) -> String.length rest < String.length buf.
  Proof.
    intros st buf st' rest items fin. unfold sse_cut.
    destruct (find_sse_event_boundary buf) as [n|] eqn:E; [|discriminate].
    intro H. inversion H; subst. apply sse_boundary_bound in E. rewrite drop_length. lia.
  Qed.

  Lemma sse_cut_stable : forall st buf x st' rest items fin,
    cut st buf = Some (st', rest, items, fin) ->
    cut st (buf ++ x) = Some (st', rest ++ x, items, fin).
  Proof.
    intros st buf x st' rest items fin. unfold sse_cut.
    destruct (find_sse_event_boundary buf) as [n|] eqn:E; [|discriminate].
    intro H. pose proof (sse_boundary_bound _ _ E) as B. rewrite (sse_boundary_app _ x _ E).
    rewrite take_app_le, drop_app_le by lia. inversion H; subst. reflexivity.
  Qed.

  Definition sse_whole (bytes : string) : run_result resp := whole resp unit cut tt bytes.

  Theorem sse_reference frames :
    no_read_error frames = true ->
    sse_run resp deser limit frames = sse_whole (bytes_of frames) \/
    exists pre post,
      sse_run resp deser limit frames = ((pre ++ [inr EBufferLimit])%list, true) /\
      fst (sse_whole (bytes_of frames)) = (pre ++ post)%list.
  Proof.
    intro H. unfold sse_run, sse_whole.
    apply (run_reference resp limit unit cut (fun _ => True)); auto.
    - apply sse_cut_shrinks.
    - intros. eexists. split; [eapply sse_cut_stable; eassumption|auto].
    - clear. induction frames as [|f fr IH]; [exact I|]. destruct fr; [exact I|]. split; auto.
  Qed.

  Theorem sse_chunking f1 f2 :
    no_read_error f1 = true -> no_read_error f2 = true -> bytes_of f1 = bytes_of f2 ->
    ~ In (inr EBufferLimit) (fst (sse_run resp deser limit f1)) ->
    ~ In (inr EBufferLimit) (fst (sse_run resp deser limit f2)) ->
    sse_run resp deser limit f1 = sse_run resp deser limit f2.
  Proof.
    intros H1 H2 Hb L1 L2.
    destruct (sse_reference f1 H1) as [->|(p1 & q1 & E1 & _)].
    2:{ exfalso. apply L1. rewrite E1. apply in_or_app. right. left. reflexivity. }
    destruct (sse_reference f2 H2) as [->|(p2 & q2 & E2 & _)].
    2:{ exfalso. apply L2. rewrite E2. apply in_or_app. right. left. reflexivity. }
    rewrite Hb. reflexivity.
  Qed.

  (** *** Every framed event is delivered *)
  Definition clean (c : ascii) : bool := negb (Ascii.eqb c LF) && negb (Ascii.eqb c CR).

  (** Text of non-empty lines followed by a blank line. *)
  Definition block (st : bool) (ls : list string) : string :=
    concat_all (map (fun l => l ++ eol st) ls) ++ eol st.

  Definition good_line (l : string) : bool := one_line l && negb (String.eqb l "").

  Lemma boundary_skip a t n :
    clean a = true -> t <> "" -> find_sse_event_boundary t = n ->
    find_sse_event_boundary (String a t) = option_map S n.
  Proof.
    intros Ha Ht H. destruct t as [|b u]; [congruence|]. rewrite sse_boundary_step.
    unfold clean in Ha. apply andb_prop in Ha. destruct Ha as [H1 H2].
    apply negb_true_iff in H1, H2. rewrite H1, H2. cbn [andb]. rewrite <- H. reflexivity.
  Qed.

  Lemma boundary_line l t n :
    one_line l = true -> t <> "" -> find_sse_event_boundary t = Some n ->
    find_sse_event_boundary (l ++ t) = Some (String.length l + n).
  Proof.
    intros Hl Ht H. induction l as [|a l IH]; [assumption|].
    unfold one_line in Hl. cbn [all_chars] in Hl. apply andb_prop in Hl. destruct Hl as [Ha Hl].
    cbn [append]. rewrite (boundary_skip a (l ++ t) (Some (String.length l + n))); auto.
    destruct l, t; simpl; congruence.
  Qed.

  Lemma boundary_block st : forall ls rest,
    forallb good_line ls = true -> ls <> [] ->
    find_sse_event_boundary (block st ls ++ rest) = Some (String.length (block st ls)).
  Proof.
    intros ls rest Hg Hne. induction ls as [|l ls IH]; [congruence|].
    cbn [forallb] in Hg. apply andb_prop in Hg. destruct Hg as [Hl Hg].
    apply andb_prop in Hl. destruct Hl as [Hl Hl0].
    unfold block. cbn [map concat_all fold_right].
    fold (concat_all (map (fun l => l ++ eol st) ls)).
    rewrite !string_app_assoc. rewrite (length_app l).
    set (tl := concat_all (map (fun l0 => l0 ++ eol st) ls) ++ eol st ++ rest).
    assert (Htl : concat_all (map (fun l0 => l0 ++ eol st) ls) ++ eol st ++ rest = tl) by reflexivity.
    apply boundary_line; [assumption|destruct st; discriminate|].
    destruct ls as [|l2 ls].
    - clear IH. subst tl. simpl. destruct st; reflexivity.
    - specialize (IH Hg ltac:(discriminate)).
      unfold block in IH. rewrite string_app_assoc, Htl in IH.
      rewrite (length_app (eol st)).
      assert (exists c u, tl = String c u /\ clean c = true) as (c & u & Etl & Hc).
      { cbn [forallb] in Hg. apply andb_prop in Hg. destruct Hg as [Hl2 _].
        apply andb_prop in Hl2. destruct Hl2 as [Hl2 Hl20].
        destruct l2 as [|c l2]; [discriminate|]. subst tl. cbn [map concat_all fold_right append].
        eexists c, _. split; [reflexivity|]. unfold one_line in Hl2. cbn [all_chars] in Hl2.
        apply andb_prop in Hl2. apply Hl2. }
      rewrite Etl in *. clear Etl Htl.
      unfold clean in Hc. apply andb_prop in Hc. destruct Hc as [C1 C2]. apply negb_true_iff in C1, C2.
      destruct st; cbn [eol append crlf lf].
      + rewrite !sse_boundary_step.
        change (Ascii.eqb CR CR) with true. change (Ascii.eqb LF LF) with true.
        change (Ascii.eqb LF CR) with false. change (Ascii.eqb CR LF) with false. cbn [andb].
        unfold crlf at 1. cbn [starts_with]. rewrite Ascii.eqb_sym, C2. cbn [andb].
        rewrite C1. rewrite IH. simpl. reflexivity.
      + rewrite !sse_boundary_step.
        change (Ascii.eqb LF LF) with true. change (Ascii.eqb LF CR) with false. cbn [andb].
        rewrite C1. rewrite IH. simpl. reflexivity.
  Qed.

  (** [lines] of such a block: the lines and an empty one. *)
  Lemma strip_cr_line l : one_line l = true -> strip_cr l = l.
  Proof.
    intro H. induction l as [|c l IH]; [reflexivity|].
    unfold one_line in H. cbn [all_chars] in H. apply andb_prop in H. destruct H as [Hc Hl].
    apply andb_prop in Hc. destruct Hc as [_ Hc]. apply negb_true_iff in Hc.
    specialize (IH Hl). destruct l as [|d l].
    - cbn. rewrite Hc. reflexivity.
    - change (strip_cr (String c (String d l))) with (String c (strip_cr (String d l))).
      rewrite IH. reflexivity.
  Qed.

  Lemma strip_cr_cr l : strip_cr (l ++ String CR "") = l.
  Proof.
    induction l as [|c l IH]; [reflexivity|].
    destruct l as [|d l].
    - reflexivity.
    - change (strip_cr (String c (String d l) ++ String CR ""))
        with (String c (strip_cr (String d l ++ String CR ""))). rewrite IH. reflexivity.
  Qed.

  Lemma lines_aux_clean l : forall cur t,
    all_chars (fun c => negb (Ascii.eqb c LF)) l = true ->
    lines_aux cur (l ++ String LF t) = strip_cr (cur ++ l) :: lines_aux "" t.
  Proof.
    induction l as [|c l IH]; intros cur t H.
    - cbn. rewrite string_app_nil_r. reflexivity.
    - cbn [all_chars] in H. apply andb_prop in H. destruct H as [Hc Hl]. apply negb_true_iff in Hc.
      cbn [append lines_aux]. rewrite Hc. rewrite IH by assumption.
      rewrite string_app_assoc. reflexivity.
  Qed.

  Lemma lines_cons st l t : one_line l = true -> lines (l ++ eol st ++ t) = l :: lines t.
  Proof.
    intro H. unfold lines. destruct st; cbn [eol].
    - unfold crlf. cbn [append].
      replace (l ++ String CR (String LF t)) with ((l ++ String CR "") ++ String LF t)
        by (rewrite string_app_assoc; reflexivity).
      rewrite lines_aux_clean.
      + cbn [append]. rewrite strip_cr_cr. reflexivity.
      + rewrite all_chars_app. rewrite andb_true_iff. split; [|reflexivity].
        eapply all_chars_impl; [|exact H]. intros c Hc. simpl in Hc.
        apply andb_prop in Hc. apply Hc.
    - unfold lf. cbn [append]. rewrite lines_aux_clean.
      + cbn [append]. rewrite strip_cr_line by assumption. reflexivity.
      + eapply all_chars_impl; [|exact H]. intros c Hc. simpl in Hc.
        apply andb_prop in Hc. apply Hc.
  Qed.

  Lemma lines_block st ls :
    forallb good_line ls = true -> lines (block st ls) = (ls ++ [""])%list.
  Proof.
    intro H. unfold block. induction ls as [|l ls IH].
    - cbn. destruct st; reflexivity.
    - cbn [forallb] in H. apply andb_prop in H. destruct H as [Hl H].
      apply andb_prop in Hl. destruct Hl as [Hl _].
      cbn [map concat_all fold_right]. rewrite !string_app_assoc. rewrite lines_cons by assumption.
      fold (concat_all (map (fun l => l ++ eol st) ls)). rewrite (IH H). reflexivity.
  Qed.

  Lemma event_block st e : encode_event st e = block st (event_lines e).
  Proof. reflexivity. Qed.

  Lemma sane_lines e : sane_event e = true ->
    forallb good_line (event_lines e) = true /\ event_lines e <> [].
  Proof.
    intro H. split; [|destruct e; discriminate]. destruct e as [ls| |t]; cbn [event_lines].
    - cbn [sane_event] in H. apply andb_prop in H. destruct H as [H _].
      cbn [forallb]. apply andb_true_iff. split; [reflexivity|].
      rewrite forallb_forall in *. intros x Hx. apply in_map_iff in Hx. destruct Hx as (l & <- & Hl).
      specialize (H l Hl). apply andb_prop in H. destruct H as [H _]. apply andb_prop in H.
      destruct H as [H _]. unfold good_line. apply andb_true_iff. split; [|reflexivity].
      unfold one_line. rewrite all_chars_app. apply andb_true_iff. split; [reflexivity|exact H].
    - reflexivity.
    - cbn [sane_event] in H. cbn [forallb]. rewrite andb_true_r. unfold good_line.
      apply andb_true_iff. split; [|reflexivity]. unfold one_line. cbn [append all_chars].
      apply andb_true_iff. split; [reflexivity|]. apply andb_prop in H. apply H.
  Qed.

  (** Parsing the lines of an event. *)
  Lemma starts_with_nil l : starts_with "" l = true.
  Proof. destruct l; reflexivity. Qed.

  Lemma trim_sp l : trim (" " ++ l) = trim l.
  Proof. reflexivity. Qed.

  Lemma parse_data_lines ev ls tl : forall ds,
    forallb (fun l => String.eqb (trim l) l) ls = true ->
    parse_lines ev ds (map (fun l => "data: " ++ l) ls ++ tl) = parse_lines ev (ds ++ ls)%list tl.
  Proof.
    induction ls as [|l ls IH]; intros ds H.
    - simpl. rewrite app_nil_r. reflexivity.
    - cbn [forallb] in H. apply andb_prop in H. destruct H as [Hl H]. apply String.eqb_eq in Hl.
      cbn [map app]. change ("data: " ++ l) with (String "d" ("ata: " ++ l)).
      cbn [parse_lines]. cbn [starts_with]. change (Ascii.eqb ":" "d") with false. cbn [andb].
      change (split_once ":" (String "d" ("ata: " ++ l))) with (Some ("data", " " ++ l)).
      cbv beta iota zeta. rewrite trim_sp, Hl.
      change (String.eqb "data" "event") with false. change (String.eqb "data" "data") with true.
      cbv iota. rewrite IH by assumption. rewrite <- app_assoc. reflexivity.
  Qed.

  Lemma utf8_concat ls : forallb utf8_ok ls = true -> utf8_ok (concat_all ls) = true.
  Proof.
    induction ls as [|l ls IH]; intro H; [reflexivity|].
    cbn [forallb] in H. apply andb_prop in H. destruct H as [H1 H2].
    cbn [concat_all fold_right]. rewrite utf8_app; [apply IH; assumption|assumption].
  Qed.

  Lemma utf8_both a b : utf8_ok a = true -> utf8_ok b = true -> utf8_ok (a ++ b) = true.
  Proof. intros H1 H2. rewrite utf8_app; assumption. Qed.

  Lemma utf8_block st ls : forallb utf8_ok ls = true -> utf8_ok (block st ls) = true.
  Proof.
    intro H. unfold block. apply utf8_both; [|destruct st; reflexivity].
    apply utf8_concat. rewrite forallb_forall in *. intros x Hx. apply in_map_iff in Hx.
    destruct Hx as (l & <- & Hl). apply utf8_both; [auto|destruct st; reflexivity].
  Qed.

  Lemma sane_utf8 e : sane_event e = true -> forallb utf8_ok (event_lines e) = true.
  Proof.
    intro H. destruct e as [ls| |t]; cbn [event_lines].
    - cbn [sane_event] in H. apply andb_prop in H. destruct H as [H _].
      cbn [forallb]. apply andb_true_iff. split; [reflexivity|].
      rewrite forallb_forall in *. intros x Hx. apply in_map_iff in Hx. destruct Hx as (l & <- & Hl).
      apply utf8_both; [reflexivity|]. specialize (H l Hl). apply andb_prop in H. apply H.
    - reflexivity.
    - cbn [forallb]. rewrite andb_true_r. apply utf8_both; [reflexivity|].
      cbn [sane_event] in H. apply andb_prop in H. apply H.
  Qed.

  Lemma handle_event st e : sane_event e = true ->
    sse_handle resp deser (encode_event st e) =
    match e with
    | WNext ls => match deser (join lf ls) with
                  | Some r => ([inl r], false)
                  | None => ([inr EInvalidResponse], true)
                  end
    | WComplete => ([], true)
    | WComment _ => ([], false)
    end.
  Proof.
    intro H. unfold sse_handle, sse_parse.
    destruct (sane_lines e H) as [Hg Hne].
    rewrite event_block, (utf8_block st _ (sane_utf8 e H)), (lines_block st _ Hg).
    destruct e as [ls| |t].
    - cbn [event_lines app]. cbn [sane_event] in H. apply andb_prop in H. destruct H as [H Hj].
      change (parse_lines None [] ("event: next" :: (map (fun l => "data: " ++ l) ls ++ [""])))
        with (parse_lines (Some "next") [] (map (fun l => "data: " ++ l) ls ++ [""])).
      rewrite parse_data_lines.
      + cbn [app parse_lines finish_event]. cbv beta iota. cbn [ev_name ev_data].
        rewrite Hj. reflexivity.
      + rewrite forallb_forall in *. intros l Hl. specialize (H l Hl).
        apply andb_prop in H. destruct H as [H _]. apply andb_prop in H. apply H.
    - reflexivity.
    - cbn [event_lines app]. cbn [parse_lines append starts_with].
      change (Ascii.eqb ":" ":") with true. destruct t; reflexivity.
  Qed.

  Lemma encode_events_cons st e es :
    encode_events st (e :: es) = encode_event st e ++ encode_events st es.
  Proof. reflexivity. Qed.

  Lemma whole_sse_nil : sse_whole "" = ([], false).
  Proof. reflexivity. Qed.

  Theorem sse_whole_events st : forall es,
    forallb sane_event es = true ->
    sse_whole (encode_events st es) = sse_deliver resp deser es.
  Proof.
    induction es as [|e es IH]; intro H; [reflexivity|].
    cbn [forallb] in H. apply andb_prop in H. destruct H as [He H]. specialize (IH H).
    unfold sse_whole, whole. rewrite (drain_step resp unit cut sse_cut_shrinks).
    rewrite encode_events_cons.
    destruct (sane_lines e He) as [Hg Hne].
    assert (B : find_sse_event_boundary (encode_event st e ++ encode_events st es)
                = Some (String.length (encode_event st e))).
    { rewrite event_block. apply boundary_block; assumption. }
    assert (C : cut tt (encode_event st e ++ encode_events st es) =
                let h := sse_handle resp deser (encode_event st e) in
                Some (tt, encode_events st es, fst h, snd h)).
    { unfold sse_cut. rewrite B, take_app_len, drop_app_len. reflexivity. }
    rewrite C, (handle_event st e He). cbv zeta. clear B C.
    unfold sse_whole, whole in IH.
    destruct e as [ls| |t]; cbn [sse_deliver].
    - destruct (deser (join lf ls)); cbn [fst snd]; [|reflexivity]. rewrite <- IH. reflexivity.
    - reflexivity.
    - cbn [fst snd app]. rewrite <- IH. reflexivity.
  Qed.

  Theorem sse_delivers st es frames :
    forallb sane_event es = true -> no_read_error frames = true ->
    bytes_of frames = encode_events st es ->
    ~ In (inr EBufferLimit) (fst (sse_run resp deser limit frames)) ->
    sse_run resp deser limit frames = sse_deliver resp deser es.
  Proof.
    intros Hs Hne Hb Hl.
    destruct (sse_reference frames Hne) as [->|(p & q & E & _)].
    - rewrite Hb. apply sse_whole_events. assumption.
    - exfalso. apply Hl. rewrite E. apply in_or_app. right. left. reflexivity.
  Qed.
End SseProofs.

(** ** multipart/mixed *)
Lemma starts_with_cancel p q t : starts_with (p ++ q) (p ++ t) = starts_with q t.
Proof. induction p as [|c p IH]; simpl; [reflexivity|]. rewrite Ascii.eqb_refl. assumption. Qed.

Lemma ends_line_cons c d s : ends_line (String c (String d s)) = ends_line (String d s).
Proof. reflexivity. Qed.

Lemma ends_line_suffix a b : ends_line (a ++ b) = true -> ends_line b = true.
Proof.
  induction a as [|c a IH]; [auto|]. cbn [append]. destruct (a ++ b) as [|d t] eqn:E.
  - destruct a, b; try discriminate. auto.
  - rewrite ends_line_cons. assumption.
Qed.

Lemma ends_line_drop n s : ends_line s = true -> ends_line (drop n s) = true.
Proof. intro H. apply (ends_line_suffix (take n s)). rewrite take_drop. assumption. Qed.

Lemma ends_line_app a b : ends_line a = true -> ends_line b = true -> ends_line (a ++ b) = true.
Proof.
  intros Ha Hb. induction a as [|c a IH]; [assumption|].
  destruct a as [|d a].
  - cbn [append]. destruct b; [assumption|]. rewrite ends_line_cons. assumption.
  - cbn [append]. rewrite ends_line_cons in *. apply IH. assumption.
Qed.

Lemma ends_line_find s : ends_line s = true -> s <> "" -> exists k, find_char LF s = Some k.
Proof.
  induction s as [|c s IH]; intros H Hne; [congruence|].
  destruct s as [|d s].
  - cbn [ends_line] in H. exists 0. cbn [find_char]. rewrite Ascii.eqb_sym, H. reflexivity.
  - rewrite ends_line_cons in H. destruct (IH H ltac:(discriminate)) as [k Hk].
    cbn [find_char] in *. destruct (Ascii.eqb LF c); [eauto|]. rewrite Hk. simpl. eauto.
Qed.

Lemma ends_line_one_line s : ends_line s = true -> one_line s = true -> s = "".
Proof.
  induction s as [|c s IH]; intros H Ho; [reflexivity|].
  unfold one_line in Ho. cbn [all_chars] in Ho. apply andb_prop in Ho. destruct Ho as [Hc Ho].
  destruct s as [|d s].
  - cbn [ends_line] in H. rewrite H in Hc. discriminate.
  - rewrite ends_line_cons in H. specialize (IH H Ho). discriminate.
Qed.

Section MultipartProofs.
  Variable resp : Type.
  Variable deser : string -> option resp.
  Variable get_from : string -> string -> lookup.
  Variable limit : N.
  Variable boundary : string.
  Hypothesis Hb : sane_boundary boundary = true.

  Notation cut := (mp_cut resp deser get_from boundary).
  Notation d := (delimiter boundary).

  Lemma b_line : one_line boundary = true.
  Proof. unfold sane_boundary in Hb. apply andb_prop in Hb. apply Hb. Qed.

  Lemma b_nonempty : boundary <> "".
  Proof.
    unfold sane_boundary in Hb. apply andb_prop in Hb. destruct Hb as [H _].
    apply negb_true_iff in H. apply String.eqb_neq. assumption.
  Qed.

  Lemma d_line : one_line d = true.
  Proof. unfold delimiter, one_line. cbn [append all_chars]. exact b_line. Qed.

  Lemma d_length : 2 <= String.length d.
  Proof. unfold delimiter. simpl. lia. Qed.

  Lemma end_marker_eq : end_marker boundary = d ++ "--".
  Proof. unfold end_marker, delimiter. rewrite string_app_assoc. reflexivity. Qed.

  Lemma end_marker_length : String.length (end_marker boundary) = String.length d + 2.
  Proof. rewrite end_marker_eq, length_app. simpl. lia. Qed.

  (** What happens to a part. *)
  Definition part_items (part : string) : list (item resp) * bool :=
    if String.eqb part "" then ([], false)
    else match parse_part resp deser get_from part with
         | inl (Some r) => ([inl r], false)
         | inl None => ([], false)
         | inr e => ([inr e], true)
         end.

  Definition skip_line (b : string) : string :=
    match find_char LF b with Some nl => drop (nl + 1) b | None => b end.

  Lemma mp_cut_started a b :
    find_sub d (a ++ d ++ b) = Some (String.length a) ->
    exists rest,
      cut true (a ++ d ++ b) =
        Some (true, rest, fst (part_items a), snd (part_items a) || starts_with "--" b) /\
      (starts_with "--" b = false -> rest = skip_line b) /\
      (exists n, rest = drop n (d ++ b)) /\ String.length rest < String.length (a ++ d ++ b).
  Proof.
    intro F. unfold mp_cut, find_next_part. rewrite F. cbn [negb].
    rewrite drop_app_len, end_marker_eq, starts_with_cancel.
    destruct (starts_with "--" b) eqn:E.
    - eexists. split; [|split; [discriminate|split]].
      + rewrite take_app_len. reflexivity.
      + eexists. reflexivity.
      + rewrite drop_length, !length_app. pose proof d_length. destruct (find_char LF _); lia.
    - eexists. split; [|split; [|split]].
      + rewrite take_app_len. reflexivity.
      + intros _. rewrite drop_app_add. unfold skip_line.
        rewrite drop_app_len.
        destruct (find_char LF b) as [nl|].
        * rewrite <- Nat.add_assoc. apply drop_app_add.
        * apply drop_app_len.
      + eexists. reflexivity.
      + rewrite drop_length, !length_app. pose proof d_length.
        destruct (find_char LF _); lia.
  Qed.

  Lemma mp_cut_unstarted a b :
    find_sub d (a ++ d ++ b) = Some (String.length a) ->
    cut false (a ++ d ++ b) =
      match find_char LF b with
      | None => None
      | Some nl => Some (true, drop (nl + 1) b, [], false)
      end.
  Proof.
    intro F. unfold mp_cut, find_next_part. rewrite F. cbn [negb].
    rewrite drop_app_add, drop_app_len.
    destruct (find_char LF b) as [nl|]; [|reflexivity].
    rewrite <- !Nat.add_assoc, drop_app_add, drop_app_add. reflexivity.
  Qed.

  Lemma cut_none st buf : find_sub d buf = None -> cut st buf = None.
  Proof. intro F. unfold mp_cut, find_next_part. rewrite F. reflexivity. Qed.

  Lemma mp_cut_shrinks : forall st buf st' rest items fin,
    cut st buf = Some (st', rest, items, fin) -> String.length rest < String.length buf.
  Proof.
    intros st buf st' rest items fin H.
    destruct (find_sub d buf) as [pos|] eqn:F; [|rewrite (cut_none st buf F) in H; discriminate].
    destruct (find_sub_some _ _ _ F) as (a & b & -> & Ha). subst pos.
    destruct st.
    - destruct (mp_cut_started a b F) as (r & E & _ & _ & L). rewrite E in H.
      inversion H; subst. assumption.
    - rewrite (mp_cut_unstarted a b F) in H. destruct (find_char LF b) as [nl|]; [|discriminate].
      inversion H; subst. rewrite drop_length, !length_app. pose proof d_length. lia.
  Qed.

  Lemma mp_cut_settled : forall st buf st' rest items fin,
    ends_line buf = true -> cut st buf = Some (st', rest, items, fin) -> ends_line rest = true.
  Proof.
    intros st buf st' rest items fin Hl H.
    destruct (find_sub d buf) as [pos|] eqn:F; [|rewrite (cut_none st buf F) in H; discriminate].
    destruct (find_sub_some _ _ _ F) as (a & b & -> & Ha). subst pos.
    destruct st.
    - destruct (mp_cut_started a b F) as (r & E & _ & (n & ->) & _). rewrite E in H.
      inversion H; subst. apply ends_line_drop. apply ends_line_suffix in Hl. assumption.
    - rewrite (mp_cut_unstarted a b F) in H. destruct (find_char LF b) as [nl|]; [|discriminate].
      inversion H; subst. apply ends_line_drop.
      apply ends_line_suffix in Hl. apply ends_line_suffix in Hl. assumption.
  Qed.

  Lemma mp_cut_stable : forall st buf x st' rest items fin,
    ends_line buf = true -> cut st buf = Some (st', rest, items, fin) ->
    exists rest2, cut st (buf ++ x) = Some (st', rest2, items, fin) /\
                  (fin = false -> rest2 = rest ++ x).
  Proof.
    intros st buf x st' rest items fin Hl H.
    destruct (find_sub d buf) as [pos|] eqn:F; [|rewrite (cut_none st buf F) in H; discriminate].
    pose proof (find_sub_app _ _ x _ F) as Fx.
    destruct (find_sub_some _ _ _ F) as (a & b & -> & Ha). subst pos.
    rewrite !string_app_assoc in *.
    pose proof (ends_line_suffix _ _ (ends_line_suffix _ _ Hl)) as Hlb.
    destruct st.
    - destruct (mp_cut_started a b F) as (r & E & Er & _). rewrite E in H.
      destruct (mp_cut_started a (b ++ x) Fx) as (rx & Ex & Erx & _). rewrite Ex.
      assert (Hne : b <> "").
      { intros ->. apply ends_line_suffix in Hl. rewrite string_app_nil_r in Hl.
        pose proof (ends_line_one_line _ Hl d_line) as Hd. pose proof d_length as HL.
        rewrite Hd in HL. simpl in HL. lia. }
      destruct (starts_with "--" b) eqn:Sb.
      + rewrite (starts_with_app _ _ x Sb). inversion H; subst; clear H.
        exists rx. split; [reflexivity|]. rewrite orb_true_r. discriminate.
      + assert (Sx : starts_with "--" (b ++ x) = false).
        { destruct b as [|c1 [|c2 b]]; [congruence| |].
          - cbn [ends_line] in Hlb. apply Ascii.eqb_eq in Hlb. subst c1. reflexivity.
          - rewrite starts_with_app_short by (simpl; lia). assumption. }
        rewrite Sx in *. inversion H; subst; clear H. exists rx. split; [reflexivity|]. intros _.
        rewrite (Er eq_refl), (Erx eq_refl). unfold skip_line.
        destruct (ends_line_find b Hlb Hne) as [k Hk]. rewrite Hk, (find_char_app _ _ x _ Hk).
        apply drop_app_le. apply find_char_bound in Hk. lia.
    - rewrite (mp_cut_unstarted a b F) in H. rewrite (mp_cut_unstarted a (b ++ x) Fx).
      destruct (find_char LF b) as [nl|] eqn:Hk; [|discriminate].
      rewrite (find_char_app _ _ x _ Hk). inversion H; subst.
      eexists. split; [reflexivity|]. intros _. apply drop_app_le. apply find_char_bound in Hk. lia.
  Qed.

  Definition mp_whole (bytes : string) : run_result resp := whole resp bool cut false bytes.

  (** Every chunk but the last ends at the end of a line. *)
  Fixpoint line_chunks (frames : list frame) : bool :=
    match frames with
    | [] => true
    | [_] => true
    | f :: fr => ends_line (data_of f) && line_chunks fr
    end.

  Theorem mp_reference frames :
    no_read_error frames = true -> line_chunks frames = true ->
    mp_run resp deser limit get_from boundary frames = mp_whole (bytes_of frames) \/
    exists pre post,
      mp_run resp deser limit get_from boundary frames = ((pre ++ [inr EBufferLimit])%list, true) /\
      fst (mp_whole (bytes_of frames)) = (pre ++ post)%list.
  Proof.
    intros H Hc. unfold mp_run, mp_whole.
    apply (run_reference resp limit bool cut (fun b => ends_line b = true)).
    - apply mp_cut_shrinks.
    - apply mp_cut_settled.
    - apply mp_cut_stable.
    - assumption.
    - reflexivity.
    - clear H. induction frames as [|f fr IH]; [exact I|]. destruct fr as [|g fr]; [exact I|].
      cbn [line_chunks] in Hc. apply andb_prop in Hc. destruct Hc as [H1 H2].
      split; [|apply IH; assumption]. intros b Hbb. apply ends_line_app; assumption.
  Qed.

  Theorem mp_chunking f1 f2 :
    no_read_error f1 = true -> no_read_error f2 = true -> bytes_of f1 = bytes_of f2 ->
    line_chunks f1 = true -> line_chunks f2 = true ->
    ~ In (inr EBufferLimit) (fst (mp_run resp deser limit get_from boundary f1)) ->
    ~ In (inr EBufferLimit) (fst (mp_run resp deser limit get_from boundary f2)) ->
    mp_run resp deser limit get_from boundary f1 = mp_run resp deser limit get_from boundary f2.
  Proof.
    intros H1 H2 Hbb C1 C2 L1 L2.
    destruct (mp_reference f1 H1 C1) as [->|(p1 & q1 & E1 & _)].
    2:{ exfalso. apply L1. rewrite E1. apply in_or_app. right. left. reflexivity. }
    destruct (mp_reference f2 H2 C2) as [->|(p2 & q2 & E2 & _)].
    2:{ exfalso. apply L2. rewrite E2. apply in_or_app. right. left. reflexivity. }
    rewrite Hbb. reflexivity.
  Qed.

  (** *** Well-formed streams are delivered whatever the chunks *)
  Lemma find_first (x : string) : forall A,
    find_sub d A = None -> ends_line A = true -> find_sub d (A ++ d ++ x) = Some (String.length A).
  Proof.
    induction A as [|c A IH]; intros F Hl.
    - cbn [append]. pose proof (starts_with_self d x) as S1.
      destruct (d ++ x); cbn [find_sub]; rewrite S1; reflexivity.
    - cbn [find_sub] in F. destruct (starts_with d (String c A)) eqn:S1; [discriminate|].
      destruct (find_sub d A) eqn:F2; [discriminate|].
      cbn [append find_sub].
      assert (Hl2 : ends_line A = true) by (apply (ends_line_suffix (String c "") A); assumption).
      rewrite (IH eq_refl Hl2). cbn [option_map String.length].
      destruct (starts_with d (String c (A ++ d ++ x))) eqn:S2; [exfalso|reflexivity].
      change (String c (A ++ d ++ x)) with (String c A ++ d ++ x) in S2.
      destruct (Compare_dec.le_lt_dec (String.length d) (String.length (String c A))) as [L|L].
      + rewrite starts_with_app_short in S2 by assumption. congruence.
      + apply starts_with_inv in S2. destruct S2 as [t S2].
        assert (P : String c A = take (String.length (String c A)) d).
        { rewrite <- (take_app_le _ d t) by lia. rewrite <- S2. rewrite take_app_len. reflexivity. }
        assert (O : one_line (String c A) = true).
        { rewrite P. clear -Hb. generalize d_line. generalize d as q. 
          generalize (String.length (String c A)) as n.
          induction n as [|n IHn]; intros [|e q]; auto. unfold one_line. cbn [take all_chars].
          intro H. apply andb_prop in H. destruct H as [Ha Hq]. rewrite Ha. apply IHn. assumption. }
        pose proof (ends_line_one_line _ Hl O). discriminate.
  Qed.

  Lemma find_sub_cons_none c A :
    Ascii.eqb "-" c = false -> find_sub d A = None -> find_sub d (String c A) = None.
  Proof.
    intros Hc F. cbn [find_sub]. unfold delimiter at 1. cbn [append starts_with].
    rewrite Hc. cbn [andb]. rewrite F. reflexivity.
  Qed.

  (** Leftover of the line end after a delimiter. *)
  Definition residue (r : string) : Prop := r = "" \/ r = crlf.

  Lemma content_ends p : ends_line (encode_content p) = true.
  Proof.
    unfold encode_content.
    assert (H : forall s, ends_line (s ++ crlf) = true).
    { induction s as [|c s IH]; [reflexivity|]. cbn [append].
      destruct (s ++ crlf) as [|e t] eqn:E; [destruct s; discriminate|].
      rewrite ends_line_cons. assumption. }
    rewrite <- !string_app_assoc. apply H.
  Qed.

  Lemma residue_find r p : residue r -> sane_part boundary p = true ->
    find_sub d (r ++ encode_content p) = None.
  Proof.
    intros Hr Hp. unfold sane_part in Hp. apply andb_prop in Hp. destruct Hp as [_ Hp].
    destruct (find_sub d (encode_content p)) eqn:F; [discriminate|].
    destruct Hr as [-> | ->]; [assumption|].
    unfold crlf. cbn [append]. apply find_sub_cons_none; [reflexivity|].
    apply find_sub_cons_none; [reflexivity|assumption].
  Qed.

  (** The body is found whatever is left of the line end. *)
  Lemma crlf_skip c t n :
    clean c = true -> find_sub (crlf ++ crlf) t = Some n ->
    find_sub (crlf ++ crlf) (String c t) = Some (S n).
  Proof.
    intros Hc F. cbn [find_sub]. unfold crlf at 1. cbn [append starts_with].
    unfold clean in Hc. apply andb_prop in Hc. destruct Hc as [_ Hc]. apply negb_true_iff in Hc.
    rewrite Ascii.eqb_sym, Hc. cbn [andb]. rewrite F. reflexivity.
  Qed.

  Lemma crlf_skip_line l t n :
    one_line l = true -> find_sub (crlf ++ crlf) t = Some n ->
    find_sub (crlf ++ crlf) (l ++ t) = Some (String.length l + n).
  Proof.
    intros Hl F. induction l as [|c l IH]; [assumption|].
    unfold one_line in Hl. cbn [all_chars] in Hl. apply andb_prop in Hl. destruct Hl as [Hc Hl].
    cbn [append]. erewrite crlf_skip; [reflexivity|assumption|apply IH; assumption].
  Qed.

  Lemma crlf_skip_eol c t n :
    clean c = true -> find_sub (crlf ++ crlf) (String c t) = Some n ->
    find_sub (crlf ++ crlf) (crlf ++ String c t) = Some (2 + n).
  Proof.
    intros Hc F. unfold crlf at 3. cbn [append find_sub].
    unfold clean in Hc. apply andb_prop in Hc. destruct Hc as [_ Hc]. apply negb_true_iff in Hc.
    assert (S1 : starts_with (crlf ++ crlf) (String CR (String LF (String c t))) = false).
    { unfold crlf. cbn [append starts_with]. rewrite (Ascii.eqb_sym CR c), Hc. reflexivity. }
    assert (S2 : starts_with (crlf ++ crlf) (String LF (String c t)) = false) by reflexivity.
    rewrite S1, S2.
    cbn [find_sub] in F. rewrite F. reflexivity.
  Qed.

  Lemma headers_find : forall hs rest,
    forallb good_line hs = true -> hs <> [] ->
    exists n,
    find_sub (crlf ++ crlf) (concat_all (map (fun l => l ++ crlf) hs) ++ crlf ++ rest) = Some n /\
    n + 4 = String.length (concat_all (map (fun l => l ++ crlf) hs) ++ crlf).
  Proof.
    induction hs as [|l hs IH]; intros rest Hg Hne; [congruence|].
    cbn [forallb] in Hg. apply andb_prop in Hg. destruct Hg as [Hl Hg].
    apply andb_prop in Hl. destruct Hl as [Hl Hl0].
    cbn [map concat_all fold_right]. fold (concat_all (map (fun l => l ++ crlf) hs)).
    rewrite !string_app_assoc.
    destruct hs as [|l2 hs].
    - exists (String.length l). split.
      + rewrite <- (Nat.add_0_r (String.length l)). apply crlf_skip_line; [assumption|].
        destruct rest; reflexivity.
      + cbn [map concat_all fold_right append]. rewrite !length_app. simpl. lia.
    - destruct (IH rest Hg ltac:(discriminate)) as (n & Hn & Ln).
      assert (exists c u, concat_all (map (fun l => l ++ crlf) (l2 :: hs)) ++ crlf ++ rest = String c u
              /\ clean c = true) as (c & u & Etl & Hc).
      { cbn [forallb] in Hg. apply andb_prop in Hg. destruct Hg as [Hl2 _].
        apply andb_prop in Hl2. destruct Hl2 as [Hl2 Hl20].
        destruct l2 as [|c l2]; [discriminate|]. cbn [map concat_all fold_right append].
        eexists c, _. split; [reflexivity|]. unfold one_line in Hl2. cbn [all_chars] in Hl2.
        apply andb_prop in Hl2. apply Hl2. }
      rewrite Etl in *. exists (String.length l + (2 + n)). split.
      + apply crlf_skip_line; [assumption|]. apply crlf_skip_eol; assumption.
      + rewrite length_app, (length_app crlf). simpl (String.length crlf). lia.
  Qed.

  Lemma trim_crlf b : trim (b ++ crlf) = trim b.
  Proof.
    assert (E : forall s, trim_end (s ++ crlf) = trim_end s).
    { induction s as [|c s IH]; [reflexivity|]. cbn [append trim_end]. rewrite IH. reflexivity. }
    unfold trim. induction b as [|c b IH]; [reflexivity|].
    cbn [append trim_start]. destruct (is_ws c); [assumption|].
    change (String c (b ++ crlf)) with (String c b ++ crlf). apply E.
  Qed.

  Lemma residue_body r p : residue r -> sane_part boundary p = true ->
    extract_body (r ++ encode_content p) = p_body p.
  Proof.
    intros Hr Hp. unfold sane_part in Hp.
    apply andb_prop in Hp. destruct Hp as [Hp _]. apply andb_prop in Hp. destruct Hp as [Hp _].
    apply andb_prop in Hp. destruct Hp as [Hp _]. apply andb_prop in Hp. destruct Hp as [Hp Ht].
    apply andb_prop in Hp. destruct Hp as [Hh Hne]. apply String.eqb_eq in Ht.
    assert (Hg : forallb good_line (p_headers p) = true).
    { rewrite forallb_forall in *. intros l Hl. specialize (Hh l Hl). apply andb_prop in Hh. apply Hh. }
    assert (Hn : p_headers p <> []) by (destruct (p_headers p); [discriminate|congruence]).
    destruct (headers_find (p_headers p) (p_body p ++ crlf) Hg Hn) as (n & F & L).
    unfold encode_content, extract_body.
    destruct Hr as [-> | ->].
    - cbn [append]. rewrite F, L, <- string_app_assoc, drop_app_len, trim_crlf. assumption.
    - assert (exists c u, concat_all (map (fun l => l ++ crlf) (p_headers p)) ++ crlf ++ p_body p ++ crlf
                          = String c u /\ clean c = true) as (c & u & Etl & Hc).
      { destruct (p_headers p) as [|l2 hs]; [congruence|].
        cbn [forallb] in Hg. apply andb_prop in Hg. destruct Hg as [Hl2 _].
        apply andb_prop in Hl2. destruct Hl2 as [Hl2 Hl20].
        destruct l2 as [|c l2]; [discriminate|]. cbn [map concat_all fold_right append].
        eexists c, _. split; [reflexivity|]. unfold one_line in Hl2. cbn [all_chars] in Hl2.
        apply andb_prop in Hl2. apply Hl2. }
      rewrite Etl in F. rewrite Etl. rewrite (crlf_skip_eol c u n Hc F). rewrite <- Etl.
      replace (2 + n + 4) with (String.length crlf + (n + 4)) by (simpl; lia).
      rewrite drop_app_add, L, <- string_app_assoc, drop_app_len, trim_crlf. assumption.
  Qed.

  Lemma residue_utf8 r p : residue r -> sane_part boundary p = true ->
    utf8_ok (r ++ encode_content p) = true.
  Proof.
    intros Hr Hp. unfold sane_part in Hp.
    apply andb_prop in Hp. destruct Hp as [Hp _]. apply andb_prop in Hp. destruct Hp as [Hp Hu].
    apply andb_prop in Hp. destruct Hp as [Hp _]. apply andb_prop in Hp. destruct Hp as [Hp _].
    apply andb_prop in Hp. destruct Hp as [Hh _].
    assert (utf8_ok (encode_content p) = true).
    { unfold encode_content. apply utf8_both; [|apply utf8_both; [reflexivity|apply utf8_both; [assumption|reflexivity]]].
      apply utf8_concat. rewrite forallb_forall in *. intros x Hx. apply in_map_iff in Hx.
      destruct Hx as (l & <- & Hl). apply utf8_both; [|reflexivity].
      specialize (Hh l Hl). apply andb_prop in Hh. apply Hh. }
    destruct Hr as [-> | ->]; [assumption|]. apply utf8_both; [reflexivity|assumption].
  Qed.

  Lemma residue_items r p : residue r -> sane_part boundary p = true ->
    part_items (r ++ encode_content p) =
    match extract_payload resp deser get_from (p_body p) with
    | inl (Some x) => ([inl x], false)
    | inl None => ([], false)
    | inr e => ([inr e], true)
    end.
  Proof.
    intros Hr Hp. unfold part_items, parse_part.
    rewrite residue_utf8, residue_body by assumption.
    assert (Hne : String.eqb (r ++ encode_content p) "" = false).
    { apply String.eqb_neq. intro H. apply (f_equal String.length) in H.
      unfold encode_content in H. rewrite !length_app in H. simpl in H. lia. }
    rewrite Hne. clear Hne.
    assert (Hbody : String.eqb (p_body p) "" = false).
    { unfold sane_part in Hp.
      apply andb_prop in Hp. destruct Hp as [Hp _]. apply andb_prop in Hp. destruct Hp as [Hp _].
      apply andb_prop in Hp. destruct Hp as [_ Hp]. apply negb_true_iff in Hp. assumption. }
    rewrite Hbody. reflexivity.
  Qed.

  (** What is still to come, split into what is already in the buffer and the rest. *)
  Definition remaining (st : bool) (s : string) (ps : list mpart) : Prop :=
    (st = false /\ s = encode_multipart boundary ps) \/
    (st = true /\ exists r p ps0, ps = p :: ps0 /\ residue r /\
                   s = r ++ encode_content p ++ d ++ encode_tail boundary ps0) \/
    (st = true /\ ps = [] /\ find_sub d s = None).

  Lemma RemStart ps : remaining false (encode_multipart boundary ps) ps.
  Proof. left. auto. Qed.

  Lemma RemPart r p ps : residue r ->
    remaining true (r ++ encode_content p ++ d ++ encode_tail boundary ps) (p :: ps).
  Proof. intro H. right. left. split; [reflexivity|]. exists r, p, ps. auto. Qed.

  Lemma RemEnd s : find_sub d s = None -> remaining true s [].
  Proof. intro H. right. right. auto. Qed.

  Lemma app_split (buf fut X Y : string) :
    buf ++ fut = X ++ Y ->
    (exists z, buf = X ++ z /\ Y = z ++ fut) \/
    (exists z, X = buf ++ z /\ z <> "" /\ fut = z ++ Y).
  Proof.
    revert X; induction buf as [|c buf IH]; intros [|e X] H; cbn [append] in H.
    - left. exists "". auto.
    - right. exists (String e X). repeat split; [congruence|assumption].
    - left. exists (String c buf). auto.
    - inversion H; subst. destruct (IH X H2) as [(z & -> & ->)|(z & -> & Hz & ->)].
      + left. exists z. auto.
      + right. exists z. auto.
  Qed.

  Lemma end_find : find_sub d ("--" ++ crlf) = None.
  Proof.
    unfold delimiter. pose proof b_nonempty as Hne. pose proof b_line as Hl.
    destruct boundary as [|c b]; [congruence|].
    unfold one_line in Hl. cbn [all_chars] in Hl. apply andb_prop in Hl. destruct Hl as [Hc _].
    apply andb_prop in Hc. destruct Hc as [_ Hc]. apply negb_true_iff in Hc.
    change ("--" ++ String c b) with (String "-" (String "-" (String c b))).
    cbn [append crlf find_sub starts_with]. change (Ascii.eqb "-" "-") with true.
    change (Ascii.eqb "-" CR) with false. change (Ascii.eqb "-" LF) with false. cbn [andb].
    rewrite Hc. cbn [andb option_map]. reflexivity.
  Qed.

  Lemma skip_remaining z fut ps0 :
    encode_tail boundary ps0 = z ++ fut -> starts_with "--" z = false ->
    remaining true (skip_line z ++ fut) ps0.
  Proof.
    intros Hz Sz. unfold skip_line. destruct ps0 as [|p2 ps0].
    - destruct z as [|c1 [|c2 z]].
      + cbn [find_char append] in *. rewrite <- Hz. apply RemEnd. exact end_find.
      + cbn in Hz. inversion Hz; subst. cbn [find_char append]. apply RemEnd. exact end_find.
      + cbn in Hz. inversion Hz; subst. discriminate.
    - cbn [encode_tail] in Hz.
      pose proof (RemPart crlf p2 ps0 (or_intror eq_refl)) as R2.
      pose proof (RemPart "" p2 ps0 (or_introl eq_refl)) as R0. cbn [append] in R0.
      remember (encode_content p2 ++ d ++ encode_tail boundary ps0) as T eqn:HT. clear HT.
      destruct z as [|c1 [|c2 z]].
      + cbn [find_char append] in *. rewrite <- Hz. exact R2.
      + unfold crlf in Hz. cbn [append] in Hz. inversion Hz; subst. exact R2.
      + unfold crlf in Hz. cbn [append] in Hz. inversion Hz; subst.
        cbn [find_char append]. change (Ascii.eqb LF CR) with false.
        change (Ascii.eqb LF LF) with true. exact R0.
  Qed.

  (** Draining the buffer of a well-formed stream. *)
  Lemma drain_wf : forall st buf fut ps,
    forallb (sane_part boundary) ps = true ->
    remaining st (buf ++ fut) ps ->
    match snd (drain resp bool cut st buf) with
    | None => fst (drain resp bool cut st buf) = mp_deliver resp deser get_from ps
    | Some (st', rest) =>
        exists ps',
          remaining st' (rest ++ fut) ps' /\
          forallb (sane_part boundary) ps' = true /\
          (fst (drain resp bool cut st buf) ++ mp_deliver resp deser get_from ps')%list
            = mp_deliver resp deser get_from ps /\
          (fut = "" -> ps' = [])
    end.
  Proof.
    intros st buf. revert st.
    induction buf as [buf IH] using utf8_strong. intros st fut ps Hs Hrem.
    rewrite (drain_step resp bool cut mp_cut_shrinks).
    destruct Hrem as [(Est & H)|[(Est & r & p & ps0 & Eps & Hr & H)|(Est & Eps & HF)]]; subst st.
    - (* before the first delimiter *)
      unfold encode_multipart in H.
      destruct (app_split _ _ _ _ H) as [(z & -> & Hz)|(z & Hd & Hzne & ->)].
      + (* delimiter in the buffer *)
        pose proof (find_first z "" ltac:(unfold delimiter; reflexivity) eq_refl) as F.
        pose proof (mp_cut_unstarted "" z F) as C. cbn [append] in C. rewrite C.
        destruct (find_char LF z) as [nl|] eqn:Hk.
        * (* line end in the buffer *)
          assert (LT : String.length (drop (nl + 1) z) < String.length (d ++ z)).
          { rewrite drop_length, length_app. pose proof d_length. lia. }
          assert (R : remaining true (drop (nl + 1) z ++ fut) ps).
          { pose proof (find_char_bound _ _ _ Hk) as Bk.
            rewrite <- drop_app_le by lia. rewrite <- Hz.
            pose proof (find_char_app _ _ fut _ Hk) as Hk2. rewrite <- Hz in Hk2.
            destruct ps as [|p ps]; cbn [encode_tail] in *.
            - cbn in Hk2. inversion Hk2; subst. apply RemEnd. reflexivity.
            - unfold crlf in Hk2. cbn in Hk2. inversion Hk2; subst.
              cbn [drop append crlf Nat.add].
              change (encode_content p ++ d ++ encode_tail boundary ps)
                with ("" ++ encode_content p ++ d ++ encode_tail boundary ps).
              apply RemPart. left. reflexivity. }
          specialize (IH _ LT true fut ps Hs R). cbn [fst snd app]. exact IH.
        * exists ps. cbn [fst snd app]. split; [|split; [assumption|split; [reflexivity|]]].
          -- rewrite string_app_assoc, <- Hz. apply RemStart.
          -- intros ->. rewrite string_app_nil_r in Hz. subst z.
             destruct ps; cbn in Hk; discriminate.
      + (* not even the delimiter *)
        rewrite (cut_none false buf).
        * exists ps. cbn [fst snd app]. split; [|split; [assumption|split; [reflexivity|]]].
          -- rewrite <- string_app_assoc. rewrite <- Hd. apply RemStart.
          -- intro Hf. destruct z; [congruence|discriminate].
        * destruct (find_sub d buf) as [k|] eqn:F; [|reflexivity]. apply find_sub_bound in F.
          rewrite Hd in F at 1. rewrite length_app in F. destruct z; [congruence|]. simpl in F. lia.
    - (* inside a part *)
      subst ps. cbn [forallb] in Hs. apply andb_prop in Hs. destruct Hs as [Hp Hs].
      rewrite <- (string_app_assoc r) in H.
      set (X := r ++ encode_content p) in *.
      assert (FX : forall z, find_sub d (X ++ d ++ z) = Some (String.length X)).
      { intro z. apply find_first; [apply residue_find; assumption|].
        apply ends_line_app; [destruct Hr as [-> | ->]; reflexivity|apply content_ends]. }
      rewrite <- (string_app_assoc X) in H.
      destruct (app_split _ _ _ _ H) as [(z & -> & Hz)|(z & Hd & Hzne & ->)].
      + rewrite string_app_assoc.
        destruct (mp_cut_started X z (FX z)) as (rest & C & Cr & _ & LT).
        rewrite C.
        pose proof (residue_items r p Hr Hp) as PI. fold X in PI. rewrite PI. clear PI.
        cbn [mp_deliver].
        destruct (extract_payload resp deser get_from (p_body p)) as [[x|]|e] eqn:EP; cbn [fst snd].
        3:{ reflexivity. }
        * destruct (starts_with "--" z) eqn:Sz; cbn [orb].
          -- destruct ps0 as [|p2 ps0]; [reflexivity|exfalso].
             apply (starts_with_app _ _ fut) in Sz. rewrite <- Hz in Sz. discriminate.
          -- specialize (Cr eq_refl). subst rest.
             pose proof (skip_remaining z fut ps0 Hz Sz) as R.
             rewrite string_app_assoc in IH.
             specialize (IH _ LT true fut ps0 Hs R).
             destruct (snd (drain resp bool cut true (skip_line z))) as [[st' rest]|].
             ++ destruct IH as (ps' & I1 & I2 & I3 & I4). exists ps'.
                split; [assumption|]. split; [assumption|]. split; [|assumption].
                cbn [fst snd app]. rewrite I3. reflexivity.
             ++ cbn [fst snd app]. rewrite IH. reflexivity.
        * destruct (starts_with "--" z) eqn:Sz; cbn [orb].
          -- destruct ps0 as [|p2 ps0]; [reflexivity|exfalso].
             apply (starts_with_app _ _ fut) in Sz. rewrite <- Hz in Sz. discriminate.
          -- specialize (Cr eq_refl). subst rest.
             pose proof (skip_remaining z fut ps0 Hz Sz) as R.
             rewrite string_app_assoc in IH.
             specialize (IH _ LT true fut ps0 Hs R).
             destruct (snd (drain resp bool cut true (skip_line z))) as [[st' rest]|].
             ++ destruct IH as (ps' & I1 & I2 & I3 & I4). exists ps'.
                split; [assumption|]. split; [assumption|]. split; [|assumption].
                cbn [fst snd app]. rewrite I3. reflexivity.
             ++ cbn [fst snd app]. rewrite IH. reflexivity.
      + rewrite (cut_none true buf).
        * exists (p :: ps0). cbn [fst snd app]. split; [|split; [|split; [reflexivity|]]].
          -- rewrite <- string_app_assoc, <- Hd. unfold X. rewrite !string_app_assoc. apply RemPart. assumption.
          -- cbn [forallb]. rewrite Hp. assumption.
          -- intro Hf. destruct z; [congruence|discriminate].
        * destruct (find_sub d buf) as [k|] eqn:F; [|reflexivity].
          pose proof (find_sub_app _ _ z _ F) as F2. rewrite <- Hd in F2.
          specialize (FX ""). rewrite string_app_nil_r in FX. rewrite FX in F2. inversion F2; subst.
          apply find_sub_bound in F. clearbody X. apply (f_equal String.length) in Hd.
          rewrite (length_app X), (length_app buf) in Hd.
          destruct z; [congruence|]. cbn [String.length] in Hd. lia.
    - (* after the end *)
      subst ps.
      rewrite (cut_none true buf (find_sub_none_prefix _ _ _ HF)).
      exists []. cbn [fst snd app]. repeat split. apply RemEnd. assumption.
  Qed.

  Lemma mp_run_wf : forall frames st buf ps,
    no_read_error frames = true ->
    forallb (sane_part boundary) ps = true ->
    remaining st (buf ++ bytes_of frames) ps ->
    ~ In (inr EBufferLimit) (fst (run resp limit bool cut st buf frames)) ->
    fst (run resp limit bool cut st buf frames) = mp_deliver resp deser get_from ps.
  Proof.
    induction frames as [|f fr IH]; intros st buf ps Hne Hs Hrem Hl.
    - rewrite run_eq in *. pose proof (drain_wf st buf "" ps Hs Hrem) as D.
      destruct (snd (drain resp bool cut st buf)) as [[st' rest]|]; [|exact D].
      destruct D as (ps' & _ & _ & D & Z). rewrite (Z eq_refl) in D. cbn [emit fst mp_deliver] in *. assumption.
    - rewrite run_eq in *. rewrite bytes_cons in Hrem.
      pose proof (drain_wf st buf _ ps Hs Hrem) as D.
      destruct (snd (drain resp bool cut st buf)) as [[st' rest]|]; [|exact D].
      destruct D as (ps' & D1 & D2 & D3 & _). rewrite <- D3.
      cbn [emit fst] in *.
      cbn [no_read_error forallb] in Hne. apply andb_prop in Hne. destruct Hne as [Hf Hne].
      destruct f as [x| |]; [| |discriminate]; cbn [data_of] in *.
      + destruct (limit <? N.of_nat (String.length (rest ++ x)))%N.
        * exfalso. apply Hl. cbn [fst]. apply in_or_app. right. left. reflexivity.
        * f_equal. apply IH; auto.
          -- rewrite string_app_assoc. assumption.
          -- intro Hin. apply Hl. apply in_or_app. right. assumption.
      + f_equal. apply IH; auto. intro Hin. apply Hl. apply in_or_app. right. assumption.
  Qed.

  Theorem mp_delivers ps frames :
    forallb (sane_part boundary) ps = true -> no_read_error frames = true ->
    bytes_of frames = encode_multipart boundary ps ->
    ~ In (inr EBufferLimit) (fst (mp_run resp deser limit get_from boundary frames)) ->
    fst (mp_run resp deser limit get_from boundary frames) = mp_deliver resp deser get_from ps.
  Proof.
    intros Hs Hne Hby Hl. unfold mp_run in *. apply mp_run_wf; auto.
    cbn [append]. rewrite Hby. apply RemStart.
  Qed.
End MultipartProofs.

(** ** The boundary parameter *)
Lemma lower_app a b : lower (a ++ b) = lower a ++ lower b.
Proof. induction a; simpl; congruence. Qed.

Lemma take_find_quote b :
  all_chars (fun c => negb (Ascii.eqb c """")) b = true ->
  find_char """" (b ++ """") = Some (String.length b).
Proof.
  induction b as [|c b IH]; intro H; [reflexivity|].
  cbn [all_chars] in H. apply andb_prop in H. destruct H as [Hc H]. apply negb_true_iff in Hc.
  cbn [append find_char]. rewrite Ascii.eqb_sym, Hc, (IH H). reflexivity.
Qed.

Lemma parse_boundary_quoted b :
  b <> "" -> all_chars (fun c => negb (Ascii.eqb c """")) b = true ->
  parse_boundary ("multipart/mixed; boundary=""" ++ b ++ """") = inl b.
Proof.
  intros Hne Hb. unfold parse_boundary, trim.
  assert (T : trim_end (trim_start ("multipart/mixed; boundary=""" ++ b ++ """"))
              = "multipart/mixed; boundary=""" ++ b ++ """").
  { change (trim_start ("multipart/mixed; boundary=""" ++ b ++ """"))
      with ("multipart/mixed; boundary=""" ++ b ++ """").
    rewrite <- string_app_assoc. apply trim_end_app; [discriminate|reflexivity]. }
  rewrite T, lower_app.
  change (lower "multipart/mixed; boundary=""") with "multipart/mixed; boundary=""".
  assert (F : find_sub "boundary=" ("multipart/mixed; boundary=""" ++ lower (b ++ """")) = Some 17).
  { rewrite (find_sub_app "boundary=" "multipart/mixed; boundary=""" _ 17) by reflexivity. reflexivity. }
  rewrite F. change (drop (17 + 9) ("multipart/mixed; boundary=""" ++ b ++ """")) with (String """" (b ++ """")).
  cbv beta iota zeta. rewrite take_find_quote by assumption. rewrite take_app_len.
  destruct b; [congruence|reflexivity].
Qed.
