(* Lemmas on the maps of the client. *)
From Coq Require Import String List Bool Arith NArith Lia.
From Verif Require Import StrUtil QplanGroup WcModel WcSpec.
Import ListNotations.
Open Scope string_scope.
Open Scope list_scope.

Lemma get_del A id i (l : list (string * A)) : get i (del id l) = if String.eqb id i then None else get i l.
Proof.
  unfold del. induction l as [|[k x] l IH]; cbn; [destruct (String.eqb id i); reflexivity|].
  destruct (String.eqb_spec k id) as [E|E]; cbn.
  - rewrite IH. subst k. destruct (String.eqb id i); reflexivity.
  - rewrite IH. destruct (String.eqb_spec k i) as [F|F]; [|reflexivity].
    subst k. destruct (String.eqb_spec id i); [congruence|reflexivity].
Qed.
Lemma get_into id its cl i l : get i (into id its cl l) =
  if String.eqb id i then option_map (fun ch => mkchan (ch_items ch ++ its) (ch_open ch && negb cl)) (get i l) else get i l.
Proof.
  unfold into. induction l as [|[k x] l IH]; cbn; [destruct (String.eqb id i); reflexivity|].
  destruct (String.eqb_spec k id) as [E|E]; cbn.
  - rewrite IH. subst k. destruct (String.eqb_spec id i); reflexivity.
  - rewrite IH. destruct (String.eqb_spec k i) as [F|F]; [|reflexivity].
    subst k. destruct (String.eqb_spec id i); [congruence|reflexivity].
Qed.
Lemma get_none A i (l : list (string * A)) : get i l = None <-> ~ In i (map fst l).
Proof.
  induction l as [|[k x] l IH]; cbn; [tauto|].
  destruct (String.eqb_spec k i) as [E|E]; [split; [discriminate|intros H; destruct H; auto]|].
  rewrite IH. split; [intros H [K|K]; auto|auto].
Qed.
Lemma get_some A i (l : list (string * A)) x : NoDup (map fst l) -> (get i l = Some x <-> In (i, x) l).
Proof.
  induction l as [|[k y] l IH]; cbn; intros D; [split; [discriminate|easy]|].
  inversion D as [|? ? N D']; subst. destruct (String.eqb_spec k i) as [E|E].
  - subst k. split; [intros [= ->]; auto|]. intros [[= ->]|H]; [reflexivity|].
    destruct N. apply (in_map fst) in H. exact H.
  - rewrite (IH D'). split; [auto|]. intros [[= K _]|H]; [congruence|exact H].
Qed.
Lemma get_drained e i (s : list (string * string)) : NoDup (map fst s) -> forall l,
  get i (fold_left (fun l x => into (fst x) [Failed e] true l) s l) =
  match get i s with
  | Some _ => option_map (fun ch => mkchan (ch_items ch ++ [Failed e]) false) (get i l)
  | None => get i l
  end.
Proof.
  induction s as [|[k p] s IH]; cbn [fold_left map fst get]; intros D l; [reflexivity|].
  inversion D as [|? ? N D']; subst. rewrite (IH D'), get_into.
  destruct (String.eqb_spec k i) as [E|E]; [|reflexivity].
  subst k. replace (get i s) with (@None string) by (symmetry; apply get_none; exact N).
  destruct (get i l) as [ch|]; cbn; [rewrite andb_false_r|]; reflexivity.
Qed.
Lemma del_nodup A id (l : list (string * A)) : NoDup (map fst l) -> NoDup (map fst (del id l)).
Proof.
  induction l as [|[k x] l IH]; cbn; intros D; [exact D|]. inversion D as [|? ? N D']; subst.
  destruct (negb (String.eqb k id)); cbn; [|auto]. constructor; [|auto].
  intros H. apply N. apply in_map_iff in H as [e [E H]]. apply filter_In in H as [H _]. rewrite <- E. apply in_map. exact H.
Qed.
Lemma del_fresh A id (l : list (string * A)) : ~ In id (map fst (del id l)).
Proof. apply get_none. rewrite get_del, String.eqb_refl. reflexivity. Qed.
Lemma name_inj j k : name j = name k -> j = k.
Proof. unfold name. intros H. apply N_to_dec_inj in H. lia. Qed.
Lemma steps_snoc parse c l a : steps parse c (l ++ [a]) = match steps parse c l with Some c' => step parse c' a | None => None end.
Proof.
  revert c. induction l as [|b l IH]; intros c; cbn [app steps]; [destruct (step parse c a); reflexivity|].
  destruct (step parse c b); [apply IH|reflexivity].
Qed.
Lemma since_snoc k tr a : since k (tr ++ [a]) =
  match since k tr with
  | Some (p, q, t) => Some (p, q, t ++ [a])
  | None => match a with Begin p q => if Nat.eqb k (calls tr) then Some (p, q, []) else None | _ => None end
  end.
Proof.
  revert k. induction tr as [|b tr IH]; intros k.
  - destruct a; cbn; try reflexivity. destruct k; reflexivity.
  - destruct b; cbn [app since calls]; try apply IH. destruct k as [|k]; cbn [Nat.eqb]; [reflexivity|apply IH].
Qed.
Lemma calls_snoc tr a : calls (tr ++ [a]) = calls tr + match a with Begin _ _ => 1 | _ => 0 end.
Proof. induction tr as [|b tr IH]; [destruct a; reflexivity|]. destruct b; cbn [app calls]; rewrite IH; reflexivity. Qed.
Lemma since_none k tr : since k tr = None <-> calls tr <= k.
Proof.
  revert k. induction tr as [|b tr IH]; intros k; [cbn; split; [intros; lia|reflexivity]|].
  destruct b; cbn [since calls]; try apply IH. destruct k as [|k]; [split; [discriminate|intros; lia]|]. rewrite IH. lia.
Qed.
