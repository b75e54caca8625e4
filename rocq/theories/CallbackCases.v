(** More about HTTP callbacks, and some histories. *)
From Coq Require Import String List Bool Arith NArith Lia.
From Verif Require Import CallbackModel CallbackSpec CallbackProofs.
Import ListNotations.
Local Open Scope string_scope.
Local Open Scope list_scope.

Section More.
  Variables P E R : Type.
  Variable decode : P -> option R.
  Variable gone : E.
  Variable deadline : N.
  Lemma send_apart id i m (s s' : state P E) (l : label P E R) : id <> i -> try_send i m s = (s', l) -> streams s' id = streams s id /\ entries s' id = entries s id.
  Proof.
    intros N X. destruct (send_cases P E R _ _ _ _ _ X) as (Ee & _ & _ & _ & [(-> & _)|(ph & q & _ & _ & _ & -> & _)]); [auto|]. cbn. split; [apply upd_other; congruence | reflexivity].
  Qed.
  Lemma post_apart h p b (s s' : state P E) (l : list (label P E R)) id : id <> p -> post h p b s = (s', l) -> streams s' id = streams s id /\ entries s' id = entries s id.
  Proof.
    unfold post. intros N X. destruct h; cbn in X; [|injection X as <- <-; auto]. destruct b as [b|]; [|injection X as <- <-; auto].
    destruct (String.eqb_spec (b_id b) p) as [Hp|]; cbn in X; [|injection X as <- <-; auto]. rewrite <- Hp in N. destruct (entries s (b_id b)) as [en|]; [|injection X as <- <-; auto].
    destruct (String.eqb_spec (e_verifier en) (b_verifier b)); cbn in X; [|injection X as <- <-; auto]. destruct (b_action b).
    - injection X as <- <-. cbn. split; [reflexivity | apply upd_other; congruence].
    - unfold handle_next in X. destruct (b_payload b); [|injection X as <- <-; auto]. destruct (try_send _ _ s) as (s1, l1) eqn:T. destruct (send_apart _ _ _ _ _ _ N T).
      destruct l1; injection X as <- <-; auto.
    - destruct (try_send _ _ s) as (s1, l1) eqn:T. destruct (send_apart _ _ _ _ _ _ N T). injection X as <- <-. auto.
  Qed.
  Lemma silent_evicted s id x : entries s id = Some x -> (deadline < now s - last_sign x)%N ->
    exists s' tr, exec decode gone deadline s [Judge id; Evict id] = (s', tr) /\ entries s' id = None /\ In (LEvicted id) tr.
  Proof.
    intros En L. cbn. rewrite En. apply N.ltb_lt in L. rewrite L. cbn. rewrite String.eqb_refl. cbn. rewrite En.
    match goal with |- context [try_send ?i ?m ?t] => destruct (@try_send P E R i m t) as (s1, l1) eqn:T end.
    pose proof (send_entries P E R _ _ _ _ _ T) as Ee. eexists _, _. split; [reflexivity|]. split; [rewrite Ee; cbn; apply upd_same | left; reflexivity].
  Qed.
  Lemma spared s id x : entries s id = Some x -> (now s - last_sign x <= deadline)%N -> step decode gone deadline s (Judge id) = (s, []).
  Proof. intros En L. cbn. rewrite En. destruct (N.ltb_spec deadline (now s - last_sign x)); [lia | reflexivity]. Qed.
  Lemma next_taken b p pl x ph q (s : state P E) : b_id b = p -> entries s p = Some x -> e_verifier x = b_verifier b -> b_action b = ANext -> b_payload b = Some pl ->
    streams s p = Some (mkstream ph q) ->
    @post P E R true p (Some b) s =
      if match ph with Asking | Streaming => true | _ => false end
      then if Nat.ltb (length q) 16 then (set_stream p (mkstream ph (q ++ [Next pl])) s, [LSent p (Next pl); LReply NoContent]) else (s, [LFull p (Next pl); LReply NoContent])
      else (doom p s, [LClosed p; LReply SubscriptionDropped]).
  Proof.
    intros Hp En Hv A Pl S. unfold post. rewrite Hp, String.eqb_refl, En, Hv, String.eqb_refl, A. cbn [negb]. unfold handle_next. rewrite Pl, Hp. unfold try_send. rewrite S.
    destruct ph; try reflexivity; change capacity with 16; destruct (Nat.ltb (length q) 16); reflexivity.
  Qed.
  Lemma completion_taken b p x ph q (s : state P E) : b_id b = p -> entries s p = Some x -> e_verifier x = b_verifier b -> b_action b = AComplete ->
    streams s p = Some (mkstream ph q) -> ph = Asking \/ ph = Streaming -> length q < 16 ->
    exists s' l, @post P E R true p (Some b) s = (s', l) /\ streams s' p = Some (mkstream ph (q ++ [Complete (b_errors b)])) /\ answer P E R l = [NoContent] /\
      entries (fst (step decode gone deadline s' (Remove p))) p = None.
  Proof.
    intros Hp En Hv A S Al L. unfold post. rewrite Hp, String.eqb_refl, En, Hv, String.eqb_refl, A. cbn [negb]. unfold try_send. rewrite S.
    apply Nat.ltb_lt in L. change capacity with 16. rewrite L. destruct Al as [-> | ->]; eexists _, _; (split; [reflexivity|]); cbn; rewrite String.eqb_refl; cbn; rewrite !upd_same; auto.
  Qed.
  Lemma beat_taken b p x (s : state P E) : b_id b = p -> entries s p = Some x -> e_verifier x = b_verifier b -> b_action b = ACheck ->
    exists s', @post P E R true p (Some b) s = (s', [LReply NoContent]) /\ now s' = now s /\ streams s' = streams s /\
      exists y, entries s' p = Some y /\ e_verifier y = e_verifier x /\ last_sign y = now s.
  Proof.
    intros Hp En Hv A. unfold post. rewrite Hp, String.eqb_refl, En, Hv, String.eqb_refl, A. cbn [negb]. eexists. split; [reflexivity|]. cbn. rewrite upd_same.
    repeat split; auto. eexists. split; [reflexivity|]. auto.
  Qed.
End More.

Definition says (a : action) (p : option nat) (e : option (list nat)) : event nat nat := Post true "a" (Some (mkbody a "a" "secret" p e)).
Definition run (l : list (event nat nat)) : state nat nat * list (label nat nat nat) := exec (fun p => Some p) 404 10%N start l.
