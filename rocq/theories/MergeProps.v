(** Properties C01 and C02: merging subgraph responses. *)
From Coq Require Import String List NArith ZArith Sorted Permutation.
From Verif Require Import StrOrd JsonModel MergeModel MergeSpec MergeProofs.
Import ListNotations.
Open Scope string_scope.

(** C01: the representation invariant is preserved. *)
Theorem C01_merge_preserves_invariant :
  forall t s, wf t -> wf s -> wf (deep_merge t s).
Proof. exact deep_merge_wf. Qed.

(** C01: what a key holds after merging two objects. *)
Theorem C01_merge_object_lookup :
  forall k tl sl, wf (VObj tl) -> wf (VObj sl) ->
  exists ml, deep_merge (VObj tl) (VObj sl) = VObj ml /\
    get k ml = match get k tl, get k sl with
               | Some a, Some b => Some (deep_merge a b)
               | Some a, None => Some a
               | None, r => r
               end.
Proof.
  intros k tl sl Wt Ws. exists (merge_objects tl sl). split; [reflexivity|].
  inversion Wt; inversion Ws; subst. apply merge_objects_get; assumption.
Qed.

(** C01: a null answer erases nothing. *)
Theorem C01_null_erases_nothing : forall t, deep_merge t VNull = t.
Proof. exact deep_merge_null_r. Qed.

(** C01: a list keeps its length; its elements are merged position by position. *)
Theorem C01_lists_keep_length :
  forall ta sa, exists ml, deep_merge (VArr ta) (VArr sa) = VArr ml /\ length ml = length ta /\
    forall i, nth_error ml i = match nth_error ta i, nth_error sa i with
                               | Some x, Some y => Some (deep_merge x y)
                               | Some x, None => Some x
                               | None, _ => None
                               end.
Proof.
  intros ta sa. exists (merge_arrays ta sa). split; [reflexivity|].
  split; [apply merge_arrays_length | apply merge_arrays_nth].
Qed.

(** C01: data at a position the new answer is silent about is kept, with no hypothesis on
    the rest of the answer. *)
Theorem C01_untouched_data_is_kept :
  forall p t s x, wf t -> wf s -> silent p s ->
  at_path p t = Some x -> at_path p (deep_merge t s) = Some x.
Proof. exact merge_keeps_silent. Qed.

(** C01: for answers that do not contradict each other, the merged tree says exactly what
    the two trees said: nothing lost, nothing invented. *)
Theorem C01_merge_is_union_of_facts :
  forall a b p x, wf a -> wf b -> agree a b ->
  (says (deep_merge a b) p x <-> says a p x \/ says b p x).
Proof. exact says_merge. Qed.

(** C02: the order in which non-contradicting responses arrive is irrelevant. *)
Theorem C02_arrival_order_irrelevant :
  forall rs rs', Permutation rs rs' ->
  forall t, wf t -> Forall wf rs ->
  (forall a, In a rs -> agree t a) ->
  (forall a b, In a rs -> In b rs -> agree a b) ->
  merge_all t rs = merge_all t rs'.
Proof. exact merge_all_perm. Qed.

(** C02: merging the same answer twice changes nothing. *)
Theorem C02_merge_idempotent : forall a, deep_merge a a = a.
Proof. exact deep_merge_idem. Qed.

(** *** Non-vacuity *)
Definition ex_t := VObj [("me", VObj [("id", VStr "1"); ("name", VNull)]);
                         ("posts", VArr [VObj [("t", VStr "a")]; VObj []])].
Definition ex_r1 := VObj [("me", VObj [("age", VU64 3); ("name", VStr "x")])].
Definition ex_r2 := VObj [("posts", VArr [VNull; VObj [("t", VStr "b")]])].

Lemma ex_wf : wf ex_t /\ wf ex_r1 /\ wf ex_r2.
Proof.
  repeat split; repeat (constructor; try reflexivity).
Qed.

Lemma ex_agree : agree ex_t ex_r1 /\ agree ex_t ex_r2 /\ agree ex_r1 ex_r2.
Proof.
  assert (H : forall (P : value -> value -> Prop) k o1 o2,
     (forall k a b, In (k, a) o1 -> In (k, b) o2 -> P a b) ->
     forall a b, get k o1 = Some a -> get k o2 = Some b -> P a b).
  { intros P k o1 o2 Hin a b Ga Gb. eapply Hin; eapply get_in; eassumption. }
  repeat split; unfold ex_t, ex_r1, ex_r2.
  - apply agree_obj. intro k. apply H. intros k0 a b Ha Hb. simpl in Ha, Hb.
    destruct Hb as [E|[]]; injection E as <- <-.
    destruct Ha as [E|[E|[]]]; injection E; intros; subst; try discriminate.
    apply agree_obj. intro k1. apply H. intros k2 a b Ha Hb. simpl in Ha, Hb.
    destruct Ha as [E1|[E1|[]]]; injection E1 as <- <-;
    destruct Hb as [E2|[E2|[]]]; injection E2; intros; subst; try discriminate. constructor.
  - apply agree_obj. intro k. apply H. intros k0 a b Ha Hb. simpl in Ha, Hb.
    destruct Hb as [E|[]]; injection E as <- <-.
    destruct Ha as [E|[E|[]]]; injection E; intros; subst; try discriminate.
    apply agree_arr. repeat constructor. intros k1 x y G. simpl in G. discriminate.
  - apply agree_obj. intro k. apply H. intros k0 a b Ha Hb. simpl in Ha, Hb.
    destruct Ha as [E|[]]; injection E as <- <-.
    destruct Hb as [E|[]]; injection E; intros; subst; discriminate.
Qed.

Example C02_example :
  merge_all ex_t [ex_r1; ex_r2] = merge_all ex_t [ex_r2; ex_r1] /\
  merge_all ex_t [ex_r1; ex_r2] =
    VObj [("me", VObj [("age", VU64 3); ("id", VStr "1"); ("name", VStr "x")]);
          ("posts", VArr [VObj [("t", VStr "a")]; VObj [("t", VStr "b")]])].
Proof.
  split; [|reflexivity].
  destruct ex_wf as (W1 & W2 & W3). destruct ex_agree as (A1 & A2 & A3).
  apply C02_arrival_order_irrelevant.
  - apply perm_swap.
  - exact W1.
  - repeat constructor; assumption.
  - intros a [<-|[<-|[]]]; assumption.
  - intros a b [<-|[<-|[]]] [<-|[<-|[]]]; try assumption; try apply agree_refl;
      apply agree_sym; assumption.
Qed.

(** The agreement hypothesis is needed: contradicting answers race. *)
Example C02_contradiction_races :
  merge_all VNull [VStr "a"; VStr "b"] <> merge_all VNull [VStr "b"; VStr "a"].
Proof. discriminate. Qed.

Print Assumptions C01_merge_preserves_invariant.
Print Assumptions C01_merge_object_lookup.
Print Assumptions C01_null_erases_nothing.
Print Assumptions C01_lists_keep_length.
Print Assumptions C01_untouched_data_is_kept.
Print Assumptions C01_merge_is_union_of_facts.
Print Assumptions C02_arrival_order_irrelevant.
Print Assumptions C02_merge_idempotent.
