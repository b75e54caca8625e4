(** Proofs about the stages of coprocessors. *)
From Coq Require Import List Bool NArith Permutation Lia String.
From Verif Require Import JsonModel CtxModel CopModel CopSpec.
Import ListNotations.
Local Open Scope string_scope.
Local Open Scope list_scope.

Lemma hop_iff n : hop_by_hop n = true <-> hop n.
Proof.
  unfold hop_by_hop, hop. rewrite existsb_exists. split; [intros (x & I & Q); apply String.eqb_eq in Q; subst; exact I | intros I; exists n; rewrite String.eqb_refl; auto].
Qed.
Lemma control_round c : (match c with Break n => valid_status n = true | Continue => True end) -> read_control (write_control c) = Some c.
Proof.
  destruct c as [|n]; intros V; [reflexivity|]. cbn -[N.ltb valid_status]. rewrite V. unfold valid_status in V. apply andb_true_iff in V. destruct V as (_ & V). apply N.leb_le in V.
  destruct (N.ltb_spec n 65536) as [L|L]; [reflexivity | lia].
Qed.
Lemma control_exact v c : read_control v = Some c -> v = write_control c /\ match c with Break n => valid_status n = true | Continue => True end.
Proof.
  destruct v; cbn -[N.ltb valid_status]; try discriminate.
  - destruct (String.eqb_spec s "continue") as [->|]; [|discriminate]. intros X. injection X as <-. auto.
  - destruct o as [|(k, x) rest]; [discriminate|]. destruct (String.eqb_spec k "break") as [->|]; cbn -[N.ltb valid_status]; [|discriminate]. destruct x; try discriminate.
    destruct (N.ltb n 65536); cbn -[valid_status]; [|discriminate]. destruct (valid_status n) eqn:V; cbn [negb]; [|discriminate]. destruct rest; [|discriminate]. intros X. injection X as <-. auto.
Qed.

(** ** Headers *)
Lemma values_app n a b : values n (a ++ b) = values n a ++ values n b.
Proof. unfold values. rewrite filter_app, map_app. reflexivity. Qed.
Lemma values_one n k v : values n [(k, v)] = if String.eqb k n then [v] else [].
Proof. unfold values. cbn. destruct (String.eqb k n); reflexivity. Qed.
Lemma values_cons n k v h : values n ((k, v) :: h) = if String.eqb k n then v :: values n h else values n h.
Proof. unfold values. cbn. destruct (String.eqb k n); reflexivity. Qed.
Lemma values_remove n k h : values n (hmap_remove k h) = if String.eqb k n then [] else values n h.
Proof.
  unfold values, hmap_remove. induction h as [|(a, v) h IH]; cbn; [destruct (String.eqb k n); reflexivity|].
  destruct (String.eqb_spec a k) as [->|D]; cbn.
  - rewrite IH. destruct (String.eqb k n); reflexivity.
  - destruct (String.eqb_spec a n) as [->|E]; cbn; rewrite IH; destruct (String.eqb_spec k n) as [->|]; try reflexivity. contradiction.
Qed.
Lemma values_removed n ks : forall h, values n (fold_left (fun h n => hmap_remove n h) ks h) = if existsb (String.eqb n) ks then [] else values n h.
Proof.
  induction ks as [|k ks IH]; intros h; [reflexivity|]. cbn [fold_left existsb]. rewrite IH, values_remove, (String.eqb_sym n k). destruct (String.eqb k n); cbn; destruct (existsb (String.eqb n) ks); reflexivity.
Qed.
Lemma values_none n h : ~ In n (map fst h) -> values n h = [].
Proof.
  unfold values. induction h as [|(a, v) h IH]; cbn; intros N; [reflexivity|]. destruct (String.eqb_spec a n) as [->|]; [destruct N; auto | apply IH; tauto].
Qed.
Lemma values_cleared n h : values n (fold_left (fun h n => hmap_remove n h) (filter (fun n => negb (hop_by_hop n)) (map fst h)) h) = if hop_by_hop n then values n h else [].
Proof.
  rewrite values_removed. destruct (existsb _ _) eqn:X.
  - apply existsb_exists in X. destruct X as (k & I & Q). apply String.eqb_eq in Q. subst k. apply filter_In in I. destruct I as (_ & I). destruct (hop_by_hop n); [discriminate | reflexivity].
  - destruct (hop_by_hop n) eqn:H; [reflexivity|]. apply values_none. intros I. assert (T : existsb (String.eqb n) (filter (fun n => negb (hop_by_hop n)) (map fst h)) = true); [|congruence].
    apply existsb_exists. exists n. rewrite String.eqb_refl, filter_In, H. auto.
Qed.

Section Headers.
  Variable header_name : string -> option string.
  Variable header_value : string -> bool.
  Local Notation each := (for_each header_name header_value).
  Local Notation put := (put_values header_value).
  Local Notation given := (given_values header_name).
  Lemma put_ok f n vs : forall h, (snd (put f n vs h) = None <-> forall v, In v vs -> header_value v = true) /\ (snd (put f n vs h) = None -> fst (put f n vs h) = fold_left (fun h v => f n v h) vs h).
  Proof.
    induction vs as [|v vs IH]; intros h; cbn; [split; [split; [intros _ v [] | auto] | auto]|]. destruct (header_value v) eqn:V.
    - destruct (IH (f n v h)) as (A & B). split; [|exact B]. rewrite A. split; [intros H x [<-|I]; auto | auto].
    - cbn. split; [split; [discriminate | intros H; rewrite (H v) in V; auto; discriminate] | discriminate].
  Qed.
  Lemma each_cons f k vs l h : each f ((k, vs) :: l) h =
    match header_name k with
    | None => (h, Some InvalidHeaderName)
    | Some n => if hop_by_hop n then each f l h else let '(h', e) := put f n vs h in match e with None => each f l h' | Some _ => (h', e) end
    end.
  Proof. reflexivity. Qed.
  Lemma given_cons k vs l n : given ((k, vs) :: l) n = match header_name k with Some m => if String.eqb m n then vs else [] | None => [] end ++ given l n.
  Proof. reflexivity. Qed.
  Lemma each_ok f l : forall h, snd (each f l h) = None <-> sound header_name header_value l.
  Proof.
    induction l as [|(k, vs) l IH]; intros h; [cbn; split; [intros _ k vs [] | auto]|].
    rewrite each_cons. assert (C : sound header_name header_value ((k, vs) :: l) <-> (exists n, header_name k = Some n /\ (hop n \/ forall v, In v vs -> header_value v = true)) /\ sound header_name header_value l).
    { unfold sound. cbn. split; [intros H; split; [apply H; auto | intros; apply H; auto] | intros (A & B) k' vs' [Q|Q]; [injection Q as <- <-; exact A | apply B; exact Q]]. }
    rewrite C. destruct (header_name k) as [n|] eqn:N; [|cbn; split; [discriminate | intros ((n & X & _) & _); discriminate]].
    destruct (hop_by_hop n) eqn:H.
    - rewrite IH. apply hop_iff in H. split; [intros S; split; [exists n; auto | exact S] | tauto].
    - pose proof (put_ok f n vs h) as (A & _). destruct (put f n vs h) as (h', [e|]); cbn in A; cbn.
      + split; [discriminate|]. intros ((n' & Q & [Z|Z]) & _); injection Q as <-; [apply hop_iff in Z; congruence | apply A in Z; discriminate].
      + rewrite IH. split; [intros S; split; [exists n; split; [reflexivity | right; apply A; reflexivity] | exact S] | tauto].
  Qed.
  Lemma fold_append m n vs : forall h, values m (fold_left (fun h v => hmap_append n v h) vs h) = values m h ++ if String.eqb n m then vs else [].
  Proof.
    induction vs as [|v vs IH]; intros h; cbn [fold_left]; [destruct (String.eqb n m); rewrite app_nil_r; reflexivity|]. rewrite IH. unfold hmap_append. rewrite values_app, values_one, <- app_assoc. destruct (String.eqb n m); reflexivity.
  Qed.
  Definition final (old new : list string) : list string := match rev new with [] => old | v :: _ => [v] end.
  Lemma final_app a b c : final (final a b) c = final a (b ++ c).
  Proof. unfold final. rewrite rev_app_distr. destruct (rev c); [reflexivity|]. reflexivity. Qed.
  Lemma fold_set m n vs : forall h, values m (fold_left (fun h v => hmap_set n v h) vs h) = final (values m h) (if String.eqb n m then vs else []).
  Proof.
    induction vs as [|v vs IH]; intros h; cbn [fold_left]; [destruct (String.eqb n m); reflexivity|]. rewrite IH. unfold hmap_set. rewrite values_app, values_one, values_remove. destruct (String.eqb n m).
    - change (v :: vs) with ([v] ++ vs). rewrite <- final_app. reflexivity.
    - rewrite app_nil_r. reflexivity.
  Qed.
  Lemma each_append l : forall h h', each hmap_append l h = (h', None) -> forall n, values n h' = values n h ++ if hop_by_hop n then [] else given l n.
  Proof.
    induction l as [|(k, vs) l IH]; intros h h' X n.
    - cbn in X. injection X as <-. cbn [given_values flat_map]. destruct (hop_by_hop n); rewrite app_nil_r; reflexivity.
    - rewrite each_cons in X. rewrite given_cons. destruct (header_name k) as [m|]; [|discriminate]. destruct (hop_by_hop m) eqn:H.
      + rewrite (IH _ _ X n). destruct (String.eqb_spec m n) as [->|]; [rewrite H; reflexivity | reflexivity].
      + pose proof (put_ok hmap_append m vs h) as (_ & B). destruct (put hmap_append m vs h) as (h1, [e|]); [discriminate|]. cbn in B. specialize (B eq_refl). subst h1.
        rewrite (IH _ _ X n), fold_append, <- app_assoc. destruct (String.eqb_spec m n) as [->|]; [rewrite H; reflexivity | reflexivity].
  Qed.
  Lemma each_set l : forall h h', each hmap_set l h = (h', None) -> forall n, values n h' = final (values n h) (if hop_by_hop n then [] else given l n).
  Proof.
    induction l as [|(k, vs) l IH]; intros h h' X n.
    - cbn in X. injection X as <-. cbn [given_values flat_map]. destruct (hop_by_hop n); reflexivity.
    - rewrite each_cons in X. rewrite given_cons. destruct (header_name k) as [m|]; [|discriminate]. destruct (hop_by_hop m) eqn:H.
      + rewrite (IH _ _ X n). destruct (String.eqb_spec m n) as [->|]; [rewrite H; reflexivity | reflexivity].
      + pose proof (put_ok hmap_set m vs h) as (_ & B). destruct (put hmap_set m vs h) as (h1, [e|]); [discriminate|]. cbn in B. specialize (B eq_refl). subst h1.
        rewrite (IH _ _ X n), fold_set, final_app. destruct (String.eqb_spec m n) as [->|]; [rewrite H; reflexivity | reflexivity].
  Qed.
  Lemma replaced l h h' : replace_into header_name header_value l h = (h', None) -> forall n, (hop n -> values n h' = values n h) /\ (~ hop n -> values n h' = given l n).
  Proof.
    intros X n. pose proof (each_append l _ _ X n) as V. rewrite values_cleared in V. rewrite <- hop_iff. destruct (hop_by_hop n); [rewrite app_nil_r in V|]; split; intros Q; try (exact V); [destruct (Q eq_refl) | discriminate].
  Qed.
  Lemma answered l h : apply_to_response header_name header_value l = (h, None) -> forall n, (hop n -> values n h = []) /\ (~ hop n -> values n h = match rev (given l n) with [] => [] | v :: _ => [v] end).
  Proof.
    intros X n. pose proof (each_set l _ _ X n) as V. rewrite <- hop_iff. destruct (hop_by_hop n); split; intros Q; try (exact V); [destruct (Q eq_refl) | discriminate].
  Qed.
  Lemma replace_ok l h : snd (replace_into header_name header_value l h) = None <-> sound header_name header_value l.
  Proof. apply each_ok. Qed.

  (** ** Headers that are written and read back *)
  Variable text : string -> bool.
  Definition under (n : string) (l : list (string * list string)) : list string := flat_map (fun e => if String.eqb (fst e) n then snd e else []) l.
  Lemma under_none n l : ~ In n (map fst l) -> under n l = [].
  Proof. unfold under. induction l as [|(a, v) l IH]; cbn; intros N; [reflexivity|]. destruct (String.eqb_spec a n) as [->|]; [destruct N; auto | apply IH; tauto]. Qed.
  Lemma group_keys k v l x : In x (map fst (group k v l)) <-> x = k \/ In x (map fst l).
  Proof. induction l as [|(a, vs) l IH]; cbn; [intuition congruence|]. destruct (String.eqb_spec a k) as [->|]; cbn; [intuition congruence | rewrite IH; tauto]. Qed.
  Lemma group_nodup k v l : NoDup (map fst l) -> NoDup (map fst (group k v l)).
  Proof.
    induction l as [|(a, vs) l IH]; cbn; intros N; [constructor; [intros [] | constructor]|]. inversion N; subst. destruct (String.eqb_spec a k) as [->|D]; cbn; [constructor; auto|].
    constructor; [rewrite group_keys; intros [Q|Q]; contradiction | auto].
  Qed.
  Lemma group_under n k v l : NoDup (map fst l) -> under n (group k v l) = under n l ++ if String.eqb k n then [v] else [].
  Proof.
    unfold under. induction l as [|(a, vs) l IH]; cbn; intros N; [rewrite app_nil_r; reflexivity|]. inversion N; subst. destruct (String.eqb_spec a k) as [->|D]; cbn.
    - destruct (String.eqb_spec k n) as [->|]; [|rewrite app_nil_r; reflexivity]. pose proof (under_none n l H1) as U. unfold under in U. rewrite U, !app_nil_r. reflexivity.
    - rewrite (IH H2), app_assoc. reflexivity.
  Qed.
  Lemma written_ok h : forall l, NoDup (map fst l) -> let w := fold_left (fun l e => if text (snd e) then group (fst e) (snd e) l else l) h l in
    NoDup (map fst w) /\ (forall n, under n w = under n l ++ filter text (values n h)) /\ (forall k, In k (map fst w) -> In k (map fst l) \/ In k (map fst h)).
  Proof.
    induction h as [|(k, v) h IH]; intros l N; cbv zeta.
    - split; [exact N|]. split; [intros n; cbn [values filter map]; rewrite app_nil_r; reflexivity | cbn; auto].
    - cbn [fold_left fst snd map]. destruct (text v) eqn:T.
      + destruct (IH (group k v l) (group_nodup _ _ _ N)) as (A & B & C). split; [exact A|]. split.
        * intros n. rewrite B, (group_under _ _ _ _ N), <- app_assoc, values_cons. destruct (String.eqb k n); cbn; [rewrite T|]; reflexivity.
        * intros x I. destruct (C x I) as [Q|Q]; [apply group_keys in Q; destruct Q as [->|Q]; cbn; auto | cbn; auto].
      + destruct (IH l N) as (A & B & C). split; [exact A|]. split.
        * intros n. rewrite B, values_cons. destruct (String.eqb k n); cbn; [rewrite T|]; reflexivity.
        * intros x I. destruct (C x I) as [Q|Q]; cbn; auto.
  Qed.
  Lemma under_in n vs l : NoDup (map fst l) -> In (n, vs) l -> under n l = vs.
  Proof.
    unfold under. induction l as [|(a, x) l IH]; cbn; intros N I; [destruct I|]. inversion N; subst. destruct I as [I|I].
    - injection I as -> ->. rewrite String.eqb_refl. pose proof (under_none n l H1) as U. unfold under in U. rewrite U, app_nil_r. reflexivity.
    - destruct (String.eqb_spec a n) as [->|]; [destruct H1; apply in_map_iff; exists (n, vs); auto | apply IH; auto].
  Qed.
  Lemma under_perm n l l' : NoDup (map fst l) -> Permutation l l' -> under n l' = under n l.
  Proof.
    intros N P. assert (N' : NoDup (map fst l')) by (eapply Permutation_NoDup; [apply Permutation_map; exact P | exact N]).
    destruct (in_dec String.string_dec n (map fst l)) as [I|I].
    - apply in_map_iff in I. destruct I as ((n', vs) & Q & I). cbn in Q. subst n'. rewrite (under_in n vs l N I). apply under_in; [exact N' | eapply Permutation_in; eauto].
    - rewrite (under_none n l I). apply under_none. intros J. apply I. eapply Permutation_in; [apply Permutation_map, Permutation_sym; exact P | exact J].
  Qed.
  Lemma echo h l : (forall n v, In (n, v) h -> header_name n = Some n /\ (text v = true -> header_value v = true)) -> Permutation (written_headers text h) l ->
    exists h', replace_into header_name header_value l h = (h', None) /\ forall n, values n h' = if hop_by_hop n then values n h else filter text (values n h).
  Proof.
    intros W P. destruct (written_ok h [] (NoDup_nil _)) as (A & B & C). fold (written_headers text h) in A, B, C.
    assert (Np : NoDup (map fst l)) by (eapply Permutation_NoDup; [apply Permutation_map; exact P | exact A]).
    assert (Kl : forall k, In k (map fst l) -> header_name k = Some k).
    { intros k I. assert (J : In k (map fst (written_headers text h))) by (eapply Permutation_in; [apply Permutation_map, Permutation_sym; exact P | exact I]).
      destruct (C k J) as [[]|Q]. apply in_map_iff in Q. destruct Q as ((k', v) & <- & Q). apply (W _ _ Q). }
    assert (S : sound header_name header_value l).
    { intros k vs I. exists k. split; [apply Kl; apply in_map_iff; exists (k, vs); auto|]. right. intros v Iv. rewrite <- (under_in k vs l Np I), (under_perm k _ _ A P), B in Iv. cbn in Iv.
      apply filter_In in Iv. destruct Iv as (Iv & T). unfold values in Iv. apply in_map_iff in Iv. destruct Iv as ((k', v') & <- & Iv). apply filter_In in Iv. apply (W _ _ (proj1 Iv)). exact T. }
    pose proof (proj2 (replace_ok l h) S) as O. destruct (replace_into header_name header_value l h) as (h', e) eqn:X. cbn in O. subst e. exists h'. split; [reflexivity|]. intros n.
    destruct (replaced _ _ _ X n) as (R1 & R2). destruct (hop_by_hop n) eqn:H; [apply R1, hop_iff, H|]. rewrite R2 by (rewrite <- hop_iff; congruence).
    assert (G : given l n = under n l).
    { unfold given_values, under. clear - Kl. induction l as [|(k, vs) l IH]; cbn; [reflexivity|]. rewrite (Kl k) by (left; reflexivity). rewrite IH by (intros; apply Kl; right; assumption). reflexivity. }
    rewrite G, (under_perm n _ _ A P), B. reflexivity.
  Qed.
End Headers.
