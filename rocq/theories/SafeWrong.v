(** Where merging goes wrong. *)
From Coq Require Import String List NArith ZArith Bool Arith.
From Verif Require Import Ast QplanModel BestModel SafeModel SafeSpec SafeBase SafeScan SafeMain SafePlain.
Import ListNotations.
Local Open Scope string_scope.
Local Open Scope list_scope.

Definition leaf (n : string) (args : option (list (string * gvalue))) : sel := SField n None args None None false [].
Definition aliased (a n : string) : sel := SField n (Some a) None None None false [].

(** ** Arguments told apart by their kind only *)
Definition with_arg (v : gvalue) : sel := leaf "f" (Some [("a", v)]).
Definition asks_arg (v : gvalue) : list step := [OnField "f" "f" (Some [("a", v)]) None None].

Lemma same_writes_lost H flags v v' : v <> v' -> value_writes v = value_writes v' ->
  merge_safe H flags false 0 [with_arg v] [with_arg v'] = Ok ([with_arg v], (0%N, [])) /\
  asks [with_arg v'] (asks_arg v') /\ ~ asks [with_arg v] (asks_arg v').
Proof.
  intros Ne E. split; [|split].
  - unfold merge_safe, merge_with. cbn [scan].
    rewrite (absorb_joined H flags false (with_arg v') 0 [] [] (with_arg v) []).
    + reflexivity.
    + cbn. constructor; [intros []|constructor].
    + reflexivity.
    + unfold with_arg, leaf, SafeBase.agree, arguments_hash, args_writes. cbn [flat_map fst snd]. rewrite E, N.eqb_refl. reflexivity.
  - apply (asks_here [with_arg v'] (with_arg v')). left. auto.
  - intros A. apply asks_from in A as (y & [<-|[]] & q & E' & _). unfold asks_arg in E'. cbn in E'. congruence.
Qed.

Lemma kinds_alike :
  value_writes (GVar "x") = value_writes (GStr "x") /\ value_writes (GEnum "x") = value_writes (GStr "x") /\
  value_writes GNull = value_writes (GBool false) /\ value_writes (GInt 0) = value_writes (GFloat 0).
Proof. repeat split. Qed.

(** ** Aliases *)
Lemma same_alias_lost H flags :
  merge_safe H flags false 0 [aliased "x" "a"] [aliased "x" "b"] = Ok ([aliased "x" "a"], (0%N, [])) /\
  ~ asks [aliased "x" "a"] [OnField "x" "b" None None None].
Proof.
  split; [reflexivity|]. intros A. apply asks_from in A as (y & [<-|[]] & q & E' & _). cbn in E'. congruence.
Qed.

(** ** Conditions *)
Definition guarded (n : string) (a : option string) (c : string) : sel := SField n a None (Some c) None false [].
Lemma guarded_rivals H flags :
  exists R c recs, no_rivals [leaf "f" None] /\ no_rivals [guarded "g" (Some "f") "c"] /\
    merge_safe H flags false 0 [leaf "f" None] [guarded "g" (Some "f") "c"] = Ok (R, (c, recs)) /\ ~ no_rivals R.
Proof.
  exists [leaf "f" None; guarded "g" (Some "f") "c"], 0%N, [].
  assert (One : forall x, no_rivals [x]).
  { intros x k n args inc skip n' args' inc' skip' A A'. apply asks_from in A as (y & [<-|[]] & q & E & _).
    apply asks_from in A' as (y & [<-|[]] & q' & E' & _). injection E as E <-. injection E' as E' <-. split; congruence. }
  split; [apply One|split; [apply One|split; [reflexivity|]]]. intros N.
  destruct (N "f" "f" None None None "g" None (Some "c") None) as [E _]; [| |discriminate].
  - apply (asks_here _ (leaf "f" None)). left. auto.
  - apply (asks_here _ (guarded "g" (Some "f") "c")). right. left. auto.
Qed.

(** ** Fragments *)
Definition within (tc : string) (l : list sel) : sel := SFrag tc None None l.
Lemma within_rivals H flags :
  merge_safe H flags false 0 [leaf "f" None] [within "T" [aliased "f" "g"]] =
    Ok ([leaf "f" None; within "T" [aliased "f" "g"]], (0%N, [])).
Proof. reflexivity. Qed.

(** ** Reserved names *)
Definition taken := aliased "_internal_qp_alias_0" "h".
Lemma taken_collides H :
  exists R recs, merge_safe H (false, true) false 0 [leaf "f" None] [aliased "f" "g"; taken] = Ok (R, (1%N, recs)) /\
    tidy [leaf "f" None] /\ tidy [aliased "f" "g"; taken] /\ ~ tidy R.
Proof.
  eexists _, _. split; [reflexivity|]. split; [|split].
  - constructor; [repeat constructor; intros []|]. intros x [<-|[]]. constructor; [constructor|intros ? []].
  - constructor.
    + cbn. constructor; [intros [E|[]]; discriminate|constructor; [intros []|constructor]].
    + intros x [<-|[<-|[]]]; (constructor; [constructor|intros ? []]).
  - intros T. inversion T as [? N _]; subst. cbn in N. inversion N as [|? ? _ N2]; subst. inversion N2 as [|? ? N3 _]; subst.
    apply N3. left. auto.
Qed.

(** ** Copies put first *)
Lemma first_misnames H :
  merge_safe H (true, false) true 0 [leaf "f" None] [aliased "f" "g"] =
    Ok ([SField "g" (Some "_internal_qp_alias_0") None None None false []; leaf "f" None],
        (1%N, [([GField "g" None 0 None], "_internal_qp_alias_0")])).
Proof. reflexivity. Qed.

(** ** No flag *)
Lemma no_flag H : merge_safe H (false, false) false 0 [leaf "f" None] [aliased "f" "g"] = Panic.
Proof. reflexivity. Qed.

(** ** Readers *)
Definition user := GField "user" None 0 None.
Definition profile := GField "profile" None 0 None.

Lemma reader_deep H :
  exists R, safe_add_at H (false, true) false [user; profile]
      [SField "user" None None None None false [SField "profile" None None None None false [aliased "f" "g"]]] [leaf "f" None] =
    Some (Ok (R, [([GField "f" None 0 None], "_internal_qp_alias_0")])) /\
    asks R [OnField "user" "user" None None None; OnField "profile" "profile" None None None;
            OnField "_internal_qp_alias_0" "f" None None None] /\
    patch_one H ([GField "f" None 0 None], "_internal_qp_alias_0") (mkreader [user; profile] [("Profile", [leaf "f" None])]) =
      Patched (mkreader [user; profile] [("Profile", [leaf "f" None])]).
Proof.
  eexists. split; [reflexivity|]. split; [|reflexivity].
  refine (asks_in _ (SField "user" None None None None false _) _ _ _); [left; reflexivity|].
  refine (asks_in _ (SField "profile" None None None None false _) _ _ _); [left; reflexivity|].
  refine (asks_here _ (SField "f" (Some "_internal_qp_alias_0") None None None false []) _). right. left. reflexivity.
Qed.

Lemma reader_short H :
  exists recs R c, merge_safe H (false, true) false 0
      [SField "o" None None None None false [aliased "f" "g"]] [SField "o" None None None None false [leaf "f" None]] = Ok (R, (c, recs)) /\
    exists r, In r recs /\ patch_one H r (mkreader [user] [("User", [leaf "f" None])]) = PatchPanic.
Proof.
  eexists _, _, _. split; [reflexivity|]. eexists. split; [left; reflexivity|reflexivity].
Qed.

Lemma reader_other H :
  patch_one H ([GField "f" None 0 None], "_internal_qp_alias_0") (mkreader [GField "f" None 0 None; user] [("User", [leaf "id" None])]) =
    Patched (mkreader [GField "_internal_qp_alias_0" None 0 None; user] [("User", [leaf "id" None])]).
Proof. reflexivity. Qed.

(** The one that works. *)
Lemma patch_first_ok H name al h l1 x l2 :
  (forall y, In y l1 -> match y with SField n _ args _ _ _ _ => String.eqb n name && N.eqb (arguments_hash H args) h | _ => false end = false) ->
  match x with SField n _ args _ _ _ _ => n = name /\ arguments_hash H args = h | _ => False end ->
  exists y, patch_first H name al h (l1 ++ x :: l2) = l1 ++ y :: l2 /\
    match x, y with
    | SField n _ args inc skip o sub, y => y = SField al (Some n) args inc skip o sub
    | _, _ => False
    end.
Proof.
  intros N X. destruct x as [n a args inc skip o sub|tc inc skip sub|n]; [|contradiction|contradiction]. destruct X as [-> <-].
  eexists. split; [|reflexivity]. induction l1 as [|y l1 IH]; cbn [List.app].
  - cbn [patch_first]. now rewrite String.eqb_refl, N.eqb_refl.
  - pose proof (N y (or_introl eq_refl)) as Ny.
    assert (IH' : patch_first H name al (arguments_hash H args) (l1 ++ SField name a args inc skip o sub :: l2) =
                  l1 ++ SField al (Some name) args inc skip o sub :: l2) by (apply IH; intros; apply N; right; auto).
    destruct y as [n' a' args' inc' skip' o' sub'|tc' inc' skip' sub'|n']; cbn [patch_first]; [rewrite Ny|idtac|idtac]; now rewrite IH'.
Qed.

Lemma reader_near H n a args inc skip o sub al g c tn l1 l2 :
  (forall y, In y l1 -> ~ exists a' args' inc' skip' o' sub', y = SField n a' args' inc' skip' o' sub') ->
  (forall m b h d, g = GField m b h d -> m <> n) ->
  patch_one H ([GField n None (arguments_hash H args) c], al) (mkreader [g] [(tn, l1 ++ SField n a args inc skip o sub :: l2)]) =
  Patched (mkreader [g] [(tn, l1 ++ SField al (Some n) args inc skip o sub :: l2)]).
Proof.
  intros N G. unfold patch_one. cbn [r_path r_input length Nat.ltb Nat.leb skipn map last focus].
  destruct (patch_first_ok H n al (arguments_hash H args) l1 (SField n a args inc skip o sub) l2) as (y & -> & ->).
  - intros y I. destruct y as [n' a' args' inc' skip' o' sub'|tc' inc' skip' sub'|n']; auto.
    destruct (String.eqb n' n) eqn:E; [|auto]. apply String.eqb_eq in E. subst n'. exfalso. apply (N _ I). eauto 10.
  - auto.
  - do 2 f_equal. destruct g as [m b h d| |names d]; cbn [patch_path]; auto.
    destruct (String.eqb m n) eqn:E; [|auto]. apply String.eqb_eq in E. now destruct (G m b h d eq_refl).
Qed.
