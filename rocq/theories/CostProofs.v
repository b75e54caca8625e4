From Coq Require Import String List Bool NArith ZArith Lia.
From Verif Require Import StrOrd Ast JsonModel MergeModel TraverseModel RewriteModel RequiresModel EntityModel
  ExecModel CondModel CostModel CostSpec.
Import ListNotations.
Local Open Scope N_scope.
Local Open Scope string_scope.
Local Open Scope list_scope.

(** ** Arithmetic up to saturation *)
Lemma same_refl a : same_u64 a a. Proof. reflexivity. Qed.
Lemma same_sat a : same_u64 (sat a) a. Proof. unfold same_u64, sat, u64_max. lia. Qed.
Lemma same_trans a b c : same_u64 a b -> same_u64 b c -> same_u64 a c. Proof. unfold same_u64. lia. Qed.
Lemma same_sym a b : same_u64 a b -> same_u64 b a. Proof. unfold same_u64. lia. Qed.
Lemma same_add a a' b b' : same_u64 a a' -> same_u64 b b' -> same_u64 (a + b) (a' + b').
Proof. unfold same_u64. lia. Qed.
Lemma same_cases a b : same_u64 a b <-> a = b \/ 18446744073709551615 <= a /\ 18446744073709551615 <= b.
Proof. unfold same_u64. lia. Qed.
Lemma mul_large a b : 18446744073709551615 <= a -> 0 < b -> 18446744073709551615 <= a * b.
Proof. intros Ha Hb. assert (a * 1 <= a * b) by (apply N.mul_le_mono_l; lia). lia. Qed.
Lemma same_mul a a' b b' : same_u64 a a' -> same_u64 b b' -> same_u64 (a * b) (a' * b').
Proof.
  rewrite !same_cases. intros [->|[Ha Ha']] [->|[Hb Hb']].
  - left; reflexivity.
  - destruct (N.eq_dec a' 0) as [->|]; [left; lia|right].
    rewrite !(N.mul_comm a'). split; apply mul_large; lia.
  - destruct (N.eq_dec b' 0) as [->|]; [left; lia|right]. split; apply mul_large; lia.
  - right. split; apply mul_large; lia.
Qed.
Lemma same_zero a : same_u64 0 a -> a = 0.
Proof. unfold same_u64. lia. Qed.
Lemma same_sat_add a a' b b' : same_u64 a a' -> same_u64 b b' -> same_u64 (sat_add a b) (a' + b').
Proof. intros. eapply same_trans; [apply same_sat|]. apply same_add; assumption. Qed.
Lemma same_sat_mul a a' b b' : same_u64 a a' -> same_u64 b b' -> same_u64 (sat_mul a b) (a' * b').
Proof. intros. eapply same_trans; [apply same_sat|]. apply same_mul; assumption. Qed.

Lemma total_app a b : total (a ++ b) = total a + total b.
Proof. induction a; cbn [total app]; lia. Qed.
Lemma fold_wrap l : forall a, fold_left wrap_add l a < u64_max + 1 \/ l = [].
Proof.
  induction l as [|x l IH]; intros a; [right; reflexivity|left]. cbn [fold_left].
  destruct (IH (wrap_add a x)) as [H|E]; [exact H|]. subst l. cbn [fold_left]. unfold wrap_add. apply N.mod_lt. unfold u64_max. lia.
Qed.
Lemma wrap_exact l : forall a, a + total l <= u64_max -> fold_left wrap_add l a = a + total l.
Proof.
  induction l as [|x l IH]; intros a H; cbn [fold_left total] in *; [lia|].
  assert (E : wrap_add a x = a + x) by (unfold wrap_add; apply N.mod_small; lia).
  rewrite E, IH; lia.
Qed.
Lemma wrap_sum_exact l : total l <= u64_max -> wrap_sum l = total l.
Proof. intros H. unfold wrap_sum. rewrite wrap_exact; lia. Qed.
Lemma sat_exact n : n <= u64_max -> sat n = n.
Proof. unfold sat. lia. Qed.

(** ** Types *)
Lemma strip_ok t : unwrap_non_null t = strip t.
Proof. induction t; cbn; auto. Qed.
Lemma is_list_ok t : is_list t = listlike t.
Proof. unfold listlike. induction t; cbn; auto. Qed.
Lemma named_ok t : inner_type t = named t.
Proof. induction t; cbn; auto. Qed.
Lemma type_weight_ok sc t : definition_cost sc t = type_weight sc t.
Proof. unfold definition_cost, type_weight. destruct (get t sc) as [[[w|] fs|fs| |[w|]|[w|]|fs]|]; reflexivity. Qed.
Lemma declared_ok sc p n : field_def sc p n = declared sc p n.
Proof. unfold field_def, declared, def_fields. destruct (get p sc) as [[]|]; reflexivity. Qed.

(** ** Input values *)
Lemma in_total x l : In x l -> x <= total l.
Proof. induction l; cbn [In total]; intros H; [destruct H|]. destruct H as [->|H]; [lia|]. apply IHl in H. lia. Qed.

Section In.
Context (sc : cschema) (vars : option (list (string * value))).

Lemma json_exact v : forall t, weigh sc t v <= u64_max -> json_input_cost sc v t = weigh sc t v.
Proof.
  induction v as [|fbits|iz|un|bb|str|raw|l IH|o IH] using value_ind'; intros t H; try reflexivity.
  - cbn [json_input_cost weigh] in *. rewrite strip_ok. destruct (strip t) as [n|t'|t']; try reflexivity.
    assert (E : map (fun x => json_input_cost sc x t') l = map (weigh sc t') l).
    { apply map_ext_in. intros x Hx. rewrite Forall_forall in IH. apply IH; [exact Hx|].
      eapply N.le_trans; [|exact H]. apply in_total. apply in_map. exact Hx. }
    rewrite E. apply wrap_sum_exact. exact H.
  - cbn [json_input_cost weigh] in *. unfold input_fields. rewrite strip_ok. destruct (strip t) as [n|t'|t']; try reflexivity.
    destruct (get n sc) as [[]|]; try reflexivity.
    match goal with |- sat_add (wrap_sum (?f o)) 1 = 1 + ?g o => set (F := f) in *; set (G := g) in * end.
    assert (E : G o <= u64_max -> F o = flat_map (fun kx => match get (fst kx) fields with
        Some (w, t') => [or_zero w + weigh sc t' (snd kx)] | None => [] end) o /\ G o = total (F o)).
    { clear H. induction o as [|[k x] o' IHo]; intros Hb; [split; reflexivity|].
      inversion IH as [|? ? Hx Ho']; subst. specialize (IHo Ho').
      change (G ((k, x) :: o')) with (match get k fields with
        | Some (w, t') => (match w with Some n => n | None => 0 end) + weigh sc t' x | None => 0 end + G o') in *.
      change (F ((k, x) :: o')) with (match get k fields with
        | Some (w, t') => sat_add (or_zero w) (json_input_cost sc x t') :: F o' | None => F o' end).
      cbn [flat_map fst snd].
      destruct (get k fields) as [[w t']|] eqn:Ek.
      - unfold or_zero in *. cbn [snd] in Hx.
        assert (Hw : weigh sc t' x <= u64_max) by (destruct w; lia).
        rewrite (Hx t' Hw). unfold sat_add. rewrite sat_exact by (destruct w; lia).
        destruct IHo as [IH1 IH2]; [destruct w; lia|]. split; [cbn [app]; f_equal; exact IH1|].
        cbn [total]. rewrite IH2. reflexivity.
      - destruct IHo as [IH1 IH2]; [lia|]. split; [exact IH1|]. rewrite N.add_0_l. exact IH2. }
    destruct E as [_ E]; [lia|]. rewrite E in *. rewrite wrap_sum_exact by lia. unfold sat_add. rewrite sat_exact by lia. lia.
Qed.

Lemma variable_var n : var vars n = match variable vars n with Some v => v | None => VNull end.
Proof. unfold var, variable. destruct vars; reflexivity. Qed.

Lemma input_exact v : forall t, weigh sc t (plug vars v) <= u64_max -> input_cost sc vars v t = weigh sc t (plug vars v).
Proof.
  induction v as [n|z|b|s|b| |s|l IH|o IH] using gvalue_ind'; intros t H; try reflexivity.
  - cbn [input_cost plug] in *. rewrite variable_var in *. destruct (variable vars n) as [j|]; [|reflexivity].
    apply json_exact. exact H.
  - cbn [input_cost plug weigh] in *. rewrite strip_ok. destruct (strip t) as [n|t'|t']; try reflexivity.
    assert (E : map (fun x => input_cost sc vars x t') l = map (weigh sc t') (map (plug vars) l)).
    { rewrite map_map. apply map_ext_in. intros x Hx. rewrite Forall_forall in IH. apply IH; [exact Hx|].
      eapply N.le_trans; [|exact H]. apply in_total. rewrite map_map. apply (in_map (fun y => weigh sc t' (plug vars y))). exact Hx. }
    rewrite E. apply wrap_sum_exact. exact H.
  - cbn [input_cost plug weigh] in *. unfold input_fields. rewrite strip_ok. destruct (strip t) as [n|t'|t']; try reflexivity.
    destruct (get n sc) as [[]|]; try reflexivity.
    match goal with |- sat_add (wrap_sum (?f o)) 1 = 1 + ?g _ => set (F := f) in *; set (G := g) in * end.
    assert (E : G (map (fun kv => (fst kv, plug vars (snd kv))) o) <= u64_max ->
                G (map (fun kv => (fst kv, plug vars (snd kv))) o) = total (F o)).
    { clear H. induction o as [|[k x] o' IHo]; intros Hb; [reflexivity|].
      inversion IH as [|? ? Hx Ho']; subst. specialize (IHo Ho').
      cbn [map fst snd] in *.
      change (G ((k, plug vars x) :: ?l)) with (match get k fields with
        | Some (w, t') => (match w with Some n => n | None => 0 end) + weigh sc t' (plug vars x) | None => 0 end + G l) in *.
      change (F ((k, x) :: o')) with (match get k fields with
        | Some (w, t') => sat_add (or_zero w) (input_cost sc vars x t') :: F o' | None => F o' end).
      destruct (get k fields) as [[w t']|] eqn:Ek.
      - unfold or_zero in *. cbn [snd] in Hx.
        assert (Hw : weigh sc t' (plug vars x) <= u64_max) by (destruct w; lia).
        rewrite (Hx t' Hw). unfold sat_add. rewrite sat_exact by (destruct w; lia).
        cbn [total]. rewrite IHo; [reflexivity|destruct w; lia].
      - rewrite N.add_0_l in *. apply IHo. exact Hb. }
    rewrite E in * by lia. rewrite wrap_sum_exact by lia. unfold sat_add. rewrite sat_exact by lia. lia.
Qed.
End In.
