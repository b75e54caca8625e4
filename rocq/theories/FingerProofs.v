(** Proofs about fingerprints. *)
From Coq Require Import String Ascii List NArith ZArith Bool Permutation Sorted Lia.
From Verif Require Import StrOrd StrUtil JsonModel HeadersModel RequiresModel RequiresSpec RequiresHash FingerModel FingerSpec.
Import ListNotations.
Local Open Scope N_scope.
Local Open Scope list_scope.

Lemma cons_inv {A} (a b : A) l l' : a :: l = b :: l' -> a = b /\ l = l'.
Proof. intros E. injection E as -> ->. auto. Qed.
Lemma N_of_ascii_inj a b : N_of_ascii a = N_of_ascii b -> a = b.
Proof. intros E. rewrite <- (ascii_N_embedding a), <- (ascii_N_embedding b), E. reflexivity. Qed.
Lemma raw_inj a : forall b, raw a = raw b -> a = b.
Proof.
  unfold raw. induction a as [|c a IH]; intros [|d b] E; cbn -[N_of_ascii] in E; try discriminate E; [reflexivity|].
  injection E as E1 E2. rewrite (N_of_ascii_inj _ _ E1), (IH b E2). reflexivity.
Qed.
Lemma raw_length s : length (raw s) = String.length s.
Proof. unfold raw. rewrite map_length. induction s as [|c s IH]; cbn; [reflexivity|]. rewrite IH. reflexivity. Qed.
Lemma len_length s : N.of_nat (length (raw s)) = len s.
Proof. unfold len. rewrite raw_length. reflexivity. Qed.
Lemma lower_length s : String.length (lower s) = String.length s.
Proof. induction s as [|c s IH]; cbn [lower String.length]; [reflexivity|]. rewrite IH. reflexivity. Qed.

Lemma pad_length n : forall l, length (pad n l) = n.
Proof. induction n as [|n IH]; intros [|x l]; cbn; rewrite ?IH; reflexivity. Qed.
Lemma pad_firstn n : forall l, (length l <= n)%nat -> firstn (length l) (pad n l) = l.
Proof.
  induction n as [|n IH]; intros [|x l] L; cbn in *; try reflexivity; [lia|]. rewrite IH by lia. reflexivity.
Qed.
Ltac p64 := change (2 ^ 64) with 18446744073709551616 in *.

Lemma method_inj m m' r r' : ok_method m -> ok_method m' -> enc_method m ++ r = enc_method m' ++ r' -> m = m' /\ r = r'.
Proof.
  intros O O' E.
  assert (Case : forall i s r r', i < 9 -> le 8 i ++ r = enc_method (MExt s) ++ r' -> False).
  { intros i s q q' L E0. unfold enc_method in E0. destruct (len s <=? 15); rewrite <- app_assoc in E0; apply le8_inj in E0; p64; lia. }
  destruct m as [i|s], m' as [i'|s']; cbn [ok_method] in O, O'.
  - cbn [enc_method] in E. apply le8_inj in E; p64; [|lia|lia]. destruct E as [-> ->]. auto.
  - exfalso. apply (Case i s' r r'); assumption.
  - exfalso. apply (Case i' s r' r); [assumption|]. symmetry. exact E.
  - unfold enc_method in E. destruct (len s <=? 15) eqn:L, (len s' <=? 15) eqn:L'; rewrite <- !app_assoc in E.
    + apply app_inv_head in E. apply app_inv_head in E. apply app_len_inj in E; [|rewrite !pad_length; reflexivity].
      destruct E as [Ep E]. cbn [app] in E. injection E as El Er. split; [|exact Er]. f_equal. apply raw_inj.
      assert (Ll : length (raw s) = length (raw s')) by (rewrite !raw_length; unfold len in El; lia).
      apply N.leb_le in L, L'. unfold len in L, L'.
      rewrite <- (pad_firstn 15 (raw s)) by (rewrite raw_length; lia). rewrite <- (pad_firstn 15 (raw s')) by (rewrite raw_length; lia).
      rewrite Ll, Ep. reflexivity.
    + apply le8_inj in E; p64; lia.
    + apply le8_inj in E; p64; lia.
    + apply app_inv_head in E. apply le8_inj in E; [|assumption..]. destruct E as [El E].
      apply app_len_inj in E; [|rewrite !raw_length; unfold len in El; lia]. destruct E as [Es Er]. split; [|exact Er]. f_equal. apply raw_inj, Es.
Qed.

(** ** The end of the path *)
Lemma le8_small n : n < 65536 -> le 8 n = [n mod 256; n / 256; 0; 0; 0; 0; 0; 0].
Proof.
  intros L. assert (L1 : n / 256 < 256) by (apply N.div_lt_upper_bound; lia).
  cbn [le]. rewrite (N.mod_small (n / 256)) by exact L1. rewrite (N.div_small (n / 256)) by exact L1. reflexivity.
Qed.
(** What follows the number of headers starts with two bytes that are not 0, if there are headers. *)
Definition heads (n : N) (R : list N) : Prop := n = 0 \/ exists a b R', R = a :: b :: R' /\ a <> 0 /\ b <> 0.
Lemma path_shift P n n' R R' : P <> [] -> Forall (fun b => b <> 0) P -> n < 65536 -> n' < 65536 -> heads n R ->
  le 8 n ++ R = P ++ le 8 n' ++ R' -> False.
Proof.
  intros Ne F L L' Hd E. rewrite !le8_small in E by assumption. destruct P as [|x P]; [congruence|]. apply Forall_inv in F as Fx. apply Forall_inv_tail in F.
  cbn [app] in E. injection E as Ex E.
  assert (Hn : n <> 0). { intros ->. cbn in Ex. congruence. }
  destruct Hd as [Hd|(a & b & R0 & -> & Na & Nb)]; [congruence|].
  destruct P as [|y P].
  - apply (f_equal (fun l => nth 7 l 0)) in E. cbn [app nth] in E. congruence.
  - apply Forall_inv in F as Fy. apply Forall_inv_tail in F. cbn [app] in E. injection E as Ey E. destruct P as [|z P].
    + apply (f_equal (fun l => nth 6 l 0)) in E. cbn [app nth] in E. congruence.
    + apply Forall_inv in F as Fz. cbn [app] in E. injection E as Ez E. congruence.
Qed.
Lemma path_inj P : forall P' n n' R R', Forall (fun b => b <> 0) P -> Forall (fun b => b <> 0) P' -> n < 65536 -> n' < 65536 ->
  heads n R -> heads n' R' -> P ++ le 8 n ++ R = P' ++ le 8 n' ++ R' -> P = P' /\ n = n' /\ R = R'.
Proof.
  induction P as [|x P IH]; intros P' n n' R R' F F' L L' Hd Hd' E.
  - destruct P' as [|y P'].
    + cbn [app] in E. apply le8_inj in E; [|p64; lia..]. destruct E as [-> ->]. auto.
    + exfalso. apply (path_shift (y :: P') n n' R R'); auto. discriminate.
  - destruct P' as [|y P'].
    + exfalso. apply (path_shift (x :: P) n' n R' R); auto. discriminate.
    + cbn [app] in E. injection E as -> E. apply Forall_inv_tail in F. apply Forall_inv_tail in F'.
      destruct (IH P' n n' R R') as (-> & -> & ->); auto.
Qed.
Lemma nonzero_raw s : nonzero s = true -> Forall (fun b => b <> 0) (raw s).
Proof.
  unfold nonzero, raw. induction s as [|c s IH]; cbn -[N_of_ascii]; intros H; [constructor|]. apply andb_prop in H. destruct H as [H1 H2].
  constructor; [|apply IH, H2]. apply negb_true_iff in H1. apply N.eqb_neq in H1. exact H1.
Qed.
Lemma question_raw s : has_char "?" s = false -> ~ In 63 (raw s).
Proof.
  unfold has_char, raw. intros H. apply negb_false_iff in H. induction s as [|c s IH]; cbn -[N_of_ascii] in *; [intros []|].
  apply andb_prop in H. destruct H as [H1 H2]. intros [H3|H3]; [|exact (IH H2 H3)].
  change 63 with (N_of_ascii "?") in H3. apply N_of_ascii_inj in H3. subst c. discriminate H1.
Qed.
Lemma path_bytes_nonzero u : ok_uri u -> Forall (fun b => b <> 0) (path_bytes u).
Proof.
  intros (_ & H & _ & Hq). unfold path_bytes. apply Forall_app. split; [apply nonzero_raw, H|].
  destruct (u_query u); [|constructor]. constructor; [discriminate|apply nonzero_raw, Hq].
Qed.
Lemma cut_inj (a : list N) : forall b x y, ~ In 63 a -> ~ In 63 b -> a ++ 63 :: x = b ++ 63 :: y -> a = b /\ x = y.
Proof.
  induction a as [|c a IH]; intros [|d b] x y Na Nb E; cbn [app] in E.
  - injection E as ->. auto.
  - injection E as <- E. exfalso. apply Nb. left. reflexivity.
  - injection E as -> E. exfalso. apply Na. left. reflexivity.
  - injection E as -> E. destruct (IH b x y) as [-> ->]; auto; intros H; [apply Na|apply Nb]; right; exact H.
Qed.
Lemma path_bytes_inj u u' : ok_uri u -> ok_uri u' -> path_bytes u = path_bytes u' -> u_path u = u_path u' /\ u_query u = u_query u'.
Proof.
  intros (_ & _ & H & _) (_ & _ & H' & _) E. apply question_raw in H, H'. unfold path_bytes in E.
  destruct (u_query u) as [q|], (u_query u') as [q'|].
  - apply cut_inj in E; [|assumption..]. destruct E as [E1 E2]. split; [apply raw_inj, E1|f_equal; apply raw_inj, E2].
  - rewrite app_nil_r in E. exfalso. apply H'. rewrite <- E. apply in_or_app. right. left. reflexivity.
  - rewrite app_nil_r in E. exfalso. apply H. rewrite E. apply in_or_app. right. left. reflexivity.
  - rewrite !app_nil_r in E. split; [apply raw_inj, E|reflexivity].
Qed.

(** ** Headers *)
Definition ok_names (l : list (string * string)) : Prop :=
  Forall (fun kv => fst kv <> ""%string /\ nonzero (fst kv) = true /\ no_ff (fst kv) = true /\ no_ff (snd kv) = true) l.
Lemma visible_no_ff v : visible v = true -> no_ff v = true.
Proof.
  unfold visible, no_ff. induction v as [|c v IH]; cbn -[N_of_ascii]; intros H; [reflexivity|]. apply andb_prop in H. destruct H as [H1 H2].
  rewrite IH by exact H2. rewrite andb_true_r. apply negb_true_iff. apply N.eqb_neq. intros E. rewrite E in H1. discriminate H1.
Qed.
Lemma flat_pairs_inj l : forall l' r r', length l = length l' -> ok_names l -> ok_names l' ->
  flat_map enc_pair l ++ r = flat_map enc_pair l' ++ r' -> l = l' /\ r = r'.
Proof.
  induction l as [|[k v] l IH]; intros [|[k' v'] l'] r r' L O O' E; try discriminate L; [auto|].
  cbn [flat_map] in E. unfold enc_pair at 1 3 in E. cbn [fst snd] in E. rewrite <- !app_assoc in E.
  unfold ok_names in O, O'. apply Forall_cons_iff in O, O'. cbn [fst snd] in O, O'. destruct O as [(_ & _ & O1 & O2) O], O' as [(_ & _ & O1' & O2') O'].
  apply str_inj in E; [|assumption..]. destruct E as [-> E]. apply str_inj in E; [|assumption..]. destruct E as [-> E].
  apply IH in E; [|injection L as L; exact L|assumption..]. destruct E as [-> ->]. auto.
Qed.
Lemma pairs_inj l l' r r' : N.of_nat (length l) < 2 ^ 64 -> N.of_nat (length l') < 2 ^ 64 -> ok_names l -> ok_names l' ->
  enc_pairs l ++ r = enc_pairs l' ++ r' -> l = l' /\ r = r'.
Proof.
  intros L L' O O' E. unfold enc_pairs in E. rewrite <- !app_assoc in E. apply le8_inj in E; [|assumption..]. destruct E as [El E].
  apply flat_pairs_inj in E; [exact E|lia|assumption..].
Qed.
Lemma pairs_heads l r : ok_names l -> heads (N.of_nat (length l)) (flat_map enc_pair l ++ r).
Proof.
  intros O. destruct l as [|[k v] l]; [left; reflexivity|]. right. unfold ok_names in O. apply Forall_inv in O. cbn [fst snd] in O. destruct O as (Ne & Nz & _ & _).
  apply nonzero_raw in Nz. cbn [flat_map]. unfold enc_pair at 1. unfold str_bytes. change (map N_of_ascii (list_ascii_of_string k)) with (raw k).
  destruct k as [|c [|d k]]; [congruence| |].
  - cbn [raw list_ascii_of_string map fst app] in *. eexists. eexists. eexists. split; [reflexivity|]. apply Forall_inv in Nz. split; [exact Nz|discriminate].
  - cbn [raw list_ascii_of_string map fst app] in *. eexists. eexists. eexists. split; [reflexivity|]. split; [apply Forall_inv in Nz; exact Nz|].
    apply Forall_inv_tail, Forall_inv in Nz. exact Nz.
Qed.

Lemma binsert_in k v m x : In x (binsert k v m) -> x = (k, v) \/ In x m.
Proof.
  induction m as [|[k' v'] m IH]; cbn [binsert]; [intros [H|[]]; auto|].
  destruct (String.compare k k'); cbn [In]; intuition.
Qed.
Lemma binsert_length k v m : (length (binsert k v m) <= S (length m))%nat.
Proof. induction m as [|[k' v'] m IH]; cbn [binsert length]; [lia|]. destruct (String.compare k k'); cbn [length]; lia. Qed.
Lemma seen_fold h : forall m x, In x (fold_left (fun m kv => if visible (snd kv) then binsert (fst kv) (snd kv) m else m) h m) ->
  In x m \/ (In x h /\ visible (snd x) = true).
Proof.
  induction h as [|[k v] h IH]; intros m x H; cbn [fold_left fst snd] in H; [auto|].
  apply IH in H. destruct H as [H|[H1 H2]]; [|right; split; [right; exact H1|exact H2]].
  destruct (visible v) eqn:V; [|auto]. apply binsert_in in H. destruct H as [->|H]; [|auto]. right. split; [left; reflexivity|exact V].
Qed.
Lemma seen_length h : forall m, (length (fold_left (fun m kv => if visible (snd kv) then binsert (fst kv) (snd kv) m else m) h m) <= length m + length h)%nat.
Proof.
  induction h as [|[k v] h IH]; intros m; cbn [fold_left fst snd length]; [lia|].
  etransitivity; [apply IH|]. destruct (visible v); [|lia]. pose proof (binsert_length k v m). lia.
Qed.
Lemma seen_ok h : ok_headers h -> ok_names (seen h) /\ N.of_nat (length (seen h)) < 65536.
Proof.
  intros [O L]. split.
  - apply Forall_forall. intros [n v] H. apply seen_fold in H. destruct H as [[]|[H V]]. cbn [fst snd] in *.
    destruct (O n v H) as (A & B & C). auto using visible_no_ff.
  - pose proof (seen_length h []). cbn [length] in H. unfold seen. lia.
Qed.
Definition mfind (n : string) (m : list (string * string)) : option string := option_map snd (find (fun kv => String.eqb n (fst kv)) m).
Definition below (k : string) (m : list (string * string)) : Prop := Forall (fun kv => str_lt k (fst kv)) m.
Fixpoint sorted (m : list (string * string)) : Prop := match m with [] => True | kv :: m' => below (fst kv) m' /\ sorted m' end.
Lemma below_binsert j k v m : str_lt j k -> below j m -> below j (binsert k v m).
Proof.
  intros L B. apply Forall_forall. intros x H. apply binsert_in in H. destruct H as [->|H]; [exact L|]. revert x H. apply Forall_forall, B.
Qed.
Lemma sorted_binsert k v m : sorted m -> sorted (binsert k v m).
Proof.
  induction m as [|[k' v'] m IH]; cbn [binsert sorted fst]; [intros _; split; [constructor|exact I]|].
  intros [B S0]. destruct (String.compare k k') eqn:E; cbn [sorted fst].
  - apply str_compare_eq in E. subst k'. auto.
  - split; [|auto]. constructor; [exact E|]. eapply Forall_impl; [|exact B]. intros kv H. eapply str_lt_trans; [exact E|exact H].
  - split; [|auto]. apply below_binsert; [|exact B]. apply str_lt_gt, E.
Qed.
Lemma mfind_below n m : below n m -> mfind n m = None.
Proof.
  intros B. unfold mfind. destruct (find _ m) as [kv|] eqn:E; [|reflexivity]. exfalso. apply find_some in E. destruct E as [H E]. apply String.eqb_eq in E.
  unfold below in B. rewrite Forall_forall in B. apply B in H. rewrite <- E in H. apply (str_lt_irrefl _ H).
Qed.
Lemma mfind_binsert n k v m : sorted m -> mfind n (binsert k v m) = if String.eqb n k then Some v else mfind n m.
Proof.
  induction m as [|[k' v'] m IH]; cbn [binsert sorted fst]; intros S0.
  - unfold mfind. cbn [find fst]. destruct (String.eqb n k); reflexivity.
  - destruct S0 as [B S0]. destruct (String.compare k k') eqn:E; unfold mfind; cbn [find fst].
    + apply str_compare_eq in E. subst k'. destruct (String.eqb n k); reflexivity.
    + destruct (String.eqb n k); reflexivity.
    + fold (mfind n (binsert k v m)). destruct (String.eqb n k') eqn:En.
      * apply String.eqb_eq in En. subst n. destruct (String.eqb k' k) eqn:Ek; [|reflexivity]. apply String.eqb_eq in Ek. subst k'.
        rewrite str_compare_refl in E. discriminate E.
      * change (option_map snd (find (fun kv => String.eqb n (fst kv)) (binsert k v m))) with (mfind n (binsert k v m)). rewrite IH by exact S0. reflexivity.
Qed.
Lemma seen_find h : forall n m, sorted m ->
  mfind n (fold_left (fun m kv => if visible (snd kv) then binsert (fst kv) (snd kv) m else m) h m) =
  match last_visible n h with Some v => Some v | None => mfind n m end.
Proof.
  induction h as [|[k v] h IH]; intros n m S0; cbn [fold_left fst snd].
  - reflexivity.
  - rewrite IH by (destruct (visible v); [apply sorted_binsert|]; exact S0). unfold last_visible. cbn [hget_all filter fst].
    unfold hget_all. cbn [filter fst]. destruct (String.eqb n k) eqn:E; cbn [map snd filter].
    + destruct (visible v) eqn:V; cbn [rev].
      * destruct (rev (filter visible (map snd (filter (fun kv => String.eqb n (fst kv)) h)))) as [|w l] eqn:Er; cbn [app]; [|reflexivity].
        rewrite mfind_binsert by exact S0. rewrite E. reflexivity.
      * reflexivity.
    + destruct (rev _); [|reflexivity]. destruct (visible v); [|reflexivity]. rewrite mfind_binsert by exact S0. rewrite E. reflexivity.
Qed.
Lemma seen_spec h n : mfind n (seen h) = last_visible n h.
Proof. unfold seen. rewrite seen_find by exact I. destruct (last_visible n h); reflexivity. Qed.
Lemma plain_tail kv h : plain (kv :: h) -> plain h.
Proof. intros [N V]. split; [apply NoDup_cons_iff in N; apply N|]. intros n v H. apply (V n). right. exact H. Qed.
Lemma plain_all n h : plain h -> filter visible (hget_all n h) = hget_all n h /\ (length (hget_all n h) <= 1)%nat.
Proof.
  induction h as [|[k v] h IH]; intros P; [split; [reflexivity|cbn; lia]|].
  destruct (IH (plain_tail _ _ P)) as [E L]. unfold hget_all. cbn [filter fst]. destruct (String.eqb n k) eqn:En; [|split; assumption].
  apply String.eqb_eq in En. subst k. cbn [map snd filter]. destruct P as [Nd V]. rewrite (V n v) by (left; reflexivity).
  fold (hget_all n h). rewrite E. split; [reflexivity|]. cbn [length map fst] in *. apply NoDup_cons_iff in Nd. destruct Nd as [Nd _].
  assert (Z : hget_all n h = []).
  { unfold hget_all. destruct (filter _ h) as [|x l] eqn:Ef; [reflexivity|]. exfalso. apply Nd.
    assert (Hx : In x (filter (fun kv => String.eqb n (fst kv)) h)) by (rewrite Ef; left; reflexivity).
    apply filter_In in Hx. destruct Hx as [Hx Ex]. apply String.eqb_eq in Ex. rewrite Ex. apply in_map, Hx. }
  rewrite Z. cbn. lia.
Qed.
Lemma last_visible_plain n h h' : plain h -> plain h' -> last_visible n h = last_visible n h' -> hget_all n h = hget_all n h'.
Proof.
  intros P P' E. unfold last_visible in E. destruct (plain_all n h P) as [Ef L], (plain_all n h' P') as [Ef' L']. rewrite Ef, Ef' in E.
  destruct (hget_all n h) as [|a [|]], (hget_all n h') as [|a' [|]]; cbn in *; try lia; try discriminate E; congruence.
Qed.

(** ** Subgraph requests *)
Lemma sreq_inj r r' : ok_sreq r -> ok_sreq r' -> enc_sreq r = enc_sreq r' ->
  r_method r = r_method r' /\ same_uri (r_uri r) (r_uri r') /\ r_body r = r_body r' /\ seen (r_headers r) = seen (r_headers r').
Proof.
  intros (Om & Ou & Oh & Ob) (Om' & Ou' & Oh' & Ob') E. unfold enc_sreq in E.
  apply method_inj in E; [|assumption..]. destruct E as [Em E]. unfold enc_uri in E. rewrite <- !app_assoc in E. cbn [app] in E.
  apply cons_inv in E. destruct E as [Es E]. apply cons_inv in E. destruct E as [_ E]. apply le8_inj in E; [|apply Ou|apply Ou']. destruct E as [El E].
  apply app_len_inj in E; [|rewrite !raw_length, !lower_length; unfold len in El; lia]. destruct E as [Ea E].
  destruct (seen_ok _ Oh) as [On Ln], (seen_ok _ Oh') as [On' Ln']. unfold enc_pairs in E. rewrite <- !app_assoc in E.
  apply path_inj in E; [|apply path_bytes_nonzero; assumption|apply path_bytes_nonzero; assumption|assumption|assumption|apply pairs_heads; assumption|apply pairs_heads; assumption].
  destruct E as (Ep & En & E). apply flat_pairs_inj in E; [|lia|assumption..]. destruct E as [Eh E].
  apply le8_inj in E; [|assumption..]. destruct E as [_ E]. destruct (path_bytes_inj _ _ Ou Ou' Ep).
  split; [exact Em|]. split; [|auto]. split; [|split; [apply raw_inj, Ea|auto]]. destruct (u_https (r_uri r)), (u_https (r_uri r')); congruence.
Qed.
Lemma shared_requests_agree H r r' : ok_sreq r -> ok_sreq r' -> tells H (enc_sreq r) (enc_sreq r') -> fingerprint H r = fingerprint H r' ->
  r_method r = r_method r' /\ same_uri (r_uri r) (r_uri r') /\ r_body r = r_body r' /\
  forall n, last_visible n (r_headers r) = last_visible n (r_headers r').
Proof.
  intros O O' T E. destruct (sreq_inj r r' O O' (T E)) as (A & B & C & D). repeat (split; [assumption|]).
  intros n. rewrite <- !seen_spec, D. reflexivity.
Qed.
Lemma shared_plain_requests_agree H r r' : ok_sreq r -> ok_sreq r' -> plain (r_headers r) -> plain (r_headers r') ->
  tells H (enc_sreq r) (enc_sreq r') -> fingerprint H r = fingerprint H r' ->
  r_method r = r_method r' /\ same_uri (r_uri r) (r_uri r') /\ r_body r = r_body r' /\ same_headers (r_headers r) (r_headers r').
Proof.
  intros O O' P P' T E. destruct (shared_requests_agree H r r' O O' T E) as (A & B & C & D). repeat (split; [assumption|]).
  intros n. apply last_visible_plain; auto.
Qed.
Lemma shares_only_enabled enabled op : shares enabled op [] = true <-> enabled = true /\ op = true.
Proof. destruct enabled, op; cbn; intuition discriminate. Qed.

(** ** Client requests *)
Lemma json_list_inj (l : list value) : Forall (fun v => forall v' r r', ok_json v -> ok_json v' -> enc_json v ++ r = enc_json v' ++ r' -> v = v' /\ r = r') l ->
  forall l' r r', length l = length l' -> (fix go l := match l with [] => True | x :: l' => ok_json x /\ go l' end) l ->
  (fix go l := match l with [] => True | x :: l' => ok_json x /\ go l' end) l' ->
  flat_map enc_json l ++ r = flat_map enc_json l' ++ r' -> l = l' /\ r = r'.
Proof.
  induction 1 as [|x l Hx F IH]; intros [|y l'] r r' L O O' E; try discriminate L; [auto|].
  cbn [flat_map] in E. rewrite <- !app_assoc in E. destruct O as [Ox O], O' as [Oy O']. apply Hx in E; [|assumption..]. destruct E as [-> E].
  injection L as L. apply IH in E; [|assumption..]. destruct E as [-> ->]. auto.
Qed.
Lemma json_obj_inj (o : list (string * value)) : Forall (fun kv => forall v' r r', ok_json (snd kv) -> ok_json v' -> enc_json (snd kv) ++ r = enc_json v' ++ r' -> snd kv = v' /\ r = r') o ->
  forall o' r r', length o = length o' -> (fix go o := match o with [] => True | kv :: o' => (no_ff (fst kv) = true /\ ok_json (snd kv)) /\ go o' end) o ->
  (fix go o := match o with [] => True | kv :: o' => (no_ff (fst kv) = true /\ ok_json (snd kv)) /\ go o' end) o' ->
  flat_map (fun kv => str_bytes (fst kv) ++ enc_json (snd kv)) o ++ r = flat_map (fun kv => str_bytes (fst kv) ++ enc_json (snd kv)) o' ++ r' -> o = o' /\ r = r'.
Proof.
  induction 1 as [|[k x] o Hx F IH]; intros [|[k' y] o'] r r' L O O' E; try discriminate L; [auto|].
  cbn [flat_map fst snd] in *. rewrite <- !app_assoc in E. destruct O as [[Ok Ox] O], O' as [[Ok' Oy] O']. apply str_inj in E; [|assumption..]. destruct E as [-> E].
  apply Hx in E; [|assumption..]. destruct E as [-> E]. injection L as L. apply IH in E; [|assumption..]. destruct E as [-> ->]. auto.
Qed.
Lemma json_inj v : forall v' r r', ok_json v -> ok_json v' -> enc_json v ++ r = enc_json v' ++ r' -> v = v' /\ r = r'.
Proof.
  induction v as [|fbits|iz|un|bb|str|rw|l IH|o IH] using value_ind'; intros v' r r' O O' E;
    destruct v' as [|fbits'|iz'|un'|bb'|str'|rw'|l'|o']; cbn [enc_json app] in E; try discriminate E; try (destruct O; fail); try (destruct O'; fail).
  - injection E as ->. auto.
  - apply cons_inv in E. destruct E as [_ E]. apply cons_inv in E. destruct E as [_ E]. apply le8_inj in E; [|assumption..]. destruct E as [-> ->]. auto.
  - apply cons_inv in E. destruct E as [_ E]. apply cons_inv in E. destruct E as [_ E]. apply le8_inj in E; [|apply z_bits_range..]. destruct E as [E ->]. apply z_bits_inj in E; [|assumption..]. subst. auto.
  - cbn [ok_json] in O, O'. apply cons_inv in E. destruct E as [_ E]. apply cons_inv in E. destruct E as [_ E]. apply le8_inj in E; [|apply O|apply O']. destruct E as [-> ->]. auto.
  - injection E as E1 E2. subst r'. destruct bb, bb'; try discriminate E1; auto.
  - apply cons_inv in E. destruct E as [_ E]. apply str_inj in E; [|assumption..]. destruct E as [-> ->]. auto.
  - apply cons_inv in E. destruct E as [_ E]. cbn [ok_json] in O, O'. destruct O as [L O], O' as [L' O']. rewrite <- !app_assoc in E. apply le8_inj in E; [|assumption..]. destruct E as [El E].
    apply (json_list_inj l IH) in E; [|lia|assumption..]. destruct E as [-> ->]. auto.
  - apply cons_inv in E. destruct E as [_ E]. cbn [ok_json] in O, O'. destruct O as [L O], O' as [L' O']. rewrite <- !app_assoc in E. apply le8_inj in E; [|assumption..]. destruct E as [El E].
    apply (json_obj_inj o IH) in E; [|lia|assumption..]. destruct E as [-> ->]. auto.
Qed.

Lemma kinsert_in k x l : In x (kinsert k l) <-> x = k \/ In x l.
Proof. induction l as [|y l IH]; cbn [kinsert]; [cbn; intuition|]. destruct (String.compare k y); cbn [In]; try rewrite IH; intuition. Qed.
Lemma ksort_in x l : In x (ksort l) <-> In x l.
Proof. induction l as [|y l IH]; cbn [ksort fold_right]; [reflexivity|]. fold (ksort l). rewrite kinsert_in, IH. cbn. intuition. Qed.
Lemma kinsert_length k l : length (kinsert k l) = S (length l).
Proof. induction l as [|y l IH]; cbn [kinsert]; [reflexivity|]. destruct (String.compare k y); cbn [length]; lia. Qed.
Lemma ksort_length l : length (ksort l) = length l.
Proof. induction l as [|y l IH]; cbn [ksort fold_right]; [reflexivity|]. fold (ksort l). rewrite kinsert_length, IH. reflexivity. Qed.
Definition enc_var (vars : list (string * value)) (k : string) : list N :=
  str_bytes k ++ match find (fun kv => String.eqb k (fst kv)) vars with Some kv => enc_json (snd kv) | None => [] end.
Lemma lookup_in vars k v : lookup k vars = Some v -> In (k, v) vars.
Proof.
  unfold lookup. destruct (find _ vars) as [[k' v']|] eqn:E; [|discriminate]. intros H. injection H as <-. apply find_some in E. destruct E as [H E].
  apply String.eqb_eq in E. cbn [fst snd] in *. subst k'. exact H.
Qed.
Lemma lookup_key vars k : In k (map fst vars) -> exists v, lookup k vars = Some v.
Proof.
  intros H. unfold lookup. destruct (find _ vars) as [kv|] eqn:E; [eexists; reflexivity|]. exfalso.
  apply in_map_iff in H. destruct H as (kv & <- & H). apply (find_none _ _ E) in H. rewrite String.eqb_refl in H. discriminate H.
Qed.
Lemma lookup_none vars k : ~ In k (map fst vars) -> lookup k vars = None.
Proof.
  intros H. destruct (lookup k vars) as [v|] eqn:E; [|reflexivity]. exfalso. apply H. apply lookup_in in E. apply (in_map fst) in E. exact E.
Qed.
Lemma vars_flat_inj a b ks : forall ks' r r', ok_vars a -> ok_vars b -> length ks = length ks' ->
  (forall k, In k ks -> In k (map fst a)) -> (forall k, In k ks' -> In k (map fst b)) ->
  flat_map (enc_var a) ks ++ r = flat_map (enc_var b) ks' ++ r' -> ks = ks' /\ (forall k, In k ks -> lookup k a = lookup k b) /\ r = r'.
Proof.
  induction ks as [|k ks IH]; intros [|k' ks'] r r' Oa Ob L Ha Hb E; try discriminate L.
  - split; [reflexivity|]. split; [intros k []|exact E].
  - cbn [flat_map] in E. unfold enc_var at 1 3 in E. rewrite <- !app_assoc in E.
    destruct (lookup_key a k) as [v Ev]; [apply Ha; left; reflexivity|]. destruct (lookup_key b k') as [v' Ev']; [apply Hb; left; reflexivity|].
    pose proof (lookup_in _ _ _ Ev) as Iv. pose proof (lookup_in _ _ _ Ev') as Iv'.
    destruct Oa as (Na & La & Va), Ob as (Nb & Lb & Vb). destruct (Va _ _ Iv) as [Fk Jv], (Vb _ _ Iv') as [Fk' Jv'].
    apply str_inj in E; [|assumption..]. destruct E as [<- E].
    unfold lookup in Ev, Ev'. destruct (find _ a) as [[q w]|] eqn:Ea in Ev; [|discriminate Ev]. destruct (find _ b) as [[q' w']|] eqn:Eb in Ev'; [|discriminate Ev'].
    rewrite Ea, Eb in E. cbn [option_map snd] in *. injection Ev as ->. injection Ev' as ->.
    apply json_inj in E; [|assumption..]. destruct E as [<- E]. apply IH in E;
      [|split; [assumption|split; assumption]|split; [assumption|split; assumption]|injection L as L; exact L|intros; apply Ha; right; assumption|intros; apply Hb; right; assumption].
    destruct E as (<- & Hl & ->). split; [reflexivity|]. split; [|reflexivity]. intros j [<-|Hj]; [|apply Hl, Hj].
    unfold lookup. rewrite Ea, Eb. reflexivity.
Qed.
Lemma vars_inj a b : ok_vars a -> ok_vars b -> enc_variables a = enc_variables b -> same_vars a b.
Proof.
  intros Oa Ob E. unfold enc_variables in E. cbv zeta in E. rewrite !ksort_length, !map_length in E.
  apply le8_inj in E; [|apply Oa|apply Ob]. destruct E as [El E].
  change (flat_map (enc_var a) (ksort (map fst a)) = flat_map (enc_var b) (ksort (map fst b))) in E.
  rewrite <- (app_nil_r (flat_map (enc_var a) _)), <- (app_nil_r (flat_map (enc_var b) _)) in E.
  apply vars_flat_inj in E; [|assumption|assumption|rewrite !ksort_length, !map_length; lia|intros k H; apply ksort_in, H|intros k H; apply ksort_in, H].
  destruct E as (Ek & Hl & _). intros k. destruct (in_dec string_dec k (map fst a)) as [Hk|Hk].
  - apply Hl, ksort_in, Hk.
  - rewrite (lookup_none a) by exact Hk. rewrite lookup_none; [reflexivity|]. intros H. apply Hk. apply ksort_in. rewrite Ek. apply ksort_in, H.
Qed.

Lemma pinsert_perm x l : Permutation (pinsert x l) (x :: l).
Proof. induction l as [|y l IH]; cbn [pinsert]; [reflexivity|]. destruct (pair_leb x y); [reflexivity|]. rewrite IH. apply perm_swap. Qed.
Lemma psort_perm l : Permutation (psort l) l.
Proof. induction l as [|x l IH]; cbn [psort fold_right]; [reflexivity|]. fold (psort l). rewrite pinsert_perm, IH. reflexivity. Qed.
Lemma included_perm p h : Permutation (included p h) (filter (fun kv => visible (snd kv)) (filter (fun kv => should_include p (fst kv)) h)).
Proof. apply psort_perm. Qed.
Lemma filter_perm {A} (f : A -> bool) l l' : Permutation l l' -> Permutation (filter f l) (filter f l').
Proof.
  induction 1; cbn [filter]; [reflexivity| | |etransitivity; eassumption].
  - destruct (f x); [constructor|]; assumption.
  - destruct (f x), (f y); try reflexivity. apply perm_swap.
Qed.
Lemma included_values p h n : should_include p n = true ->
  hget_all n (filter (fun kv => visible (snd kv)) (filter (fun kv => should_include p (fst kv)) h)) = filter visible (hget_all n h).
Proof.
  intros Hn. unfold hget_all. induction h as [|[k v] h IH]; [reflexivity|]. cbn [filter fst].
  destruct (String.eqb n k) eqn:E.
  - apply String.eqb_eq in E. subst k. rewrite Hn. cbn [filter snd fst map]. destruct (visible v); cbn [filter fst map snd]; [|exact IH].
    rewrite String.eqb_refl. cbn [map snd]. rewrite IH. reflexivity.
  - destruct (should_include p k); cbn [filter snd fst]; [|exact IH]. destruct (visible v); cbn [filter fst]; [rewrite E|]; exact IH.
Qed.
Lemma included_same p h h' : included p h = included p h' -> same_included p h h'.
Proof.
  intros E n Hn. rewrite <- !(included_values p) by exact Hn. unfold hget_all. apply Permutation_map, filter_perm.
  rewrite <- !included_perm, E. reflexivity.
Qed.
Lemma filter_len {A} (f : A -> bool) l : (length (filter f l) <= length l)%nat.
Proof. induction l as [|x l IH]; cbn [filter]; [apply le_n|]. destruct (f x); cbn [length]; lia. Qed.
Lemma included_ok p h : ok_headers h -> ok_names (included p h) /\ N.of_nat (length (included p h)) < 2 ^ 64.
Proof.
  intros [O L]. split.
  - apply Forall_forall. intros [n v] H. rewrite included_perm in H. apply filter_In in H. destruct H as [H V]. apply filter_In in H. destruct H as [H _].
    cbn [fst snd] in *. destruct (O n v H) as (A & B & C). auto using visible_no_ff.
  - rewrite (Permutation_length (included_perm p h)). pose proof (filter_len (fun kv => visible (snd kv)) (filter (fun kv => should_include p (fst kv)) h)).
    pose proof (filter_len (fun kv : string * string => should_include p (fst kv)) h). p64. lia.
Qed.
Lemma connection_inj m m' path path' h h' p sc sc' : ok_method m -> ok_method m' -> no_ff path = true -> no_ff path' = true ->
  ok_headers h -> ok_headers h' -> sc < 2 ^ 64 -> sc' < 2 ^ 64 ->
  enc_connection m path h p sc = enc_connection m' path' h' p sc' -> m = m' /\ path = path' /\ included p h = included p h' /\ sc = sc'.
Proof.
  intros Om Om' Op Op' Oh Oh' Os Os' E. unfold enc_connection in E. apply method_inj in E; [|assumption..]. destruct E as [-> E].
  apply str_inj in E; [|assumption..]. destruct E as [-> E]. destruct (included_ok p h Oh) as [On L], (included_ok p h' Oh') as [On' L'].
  apply pairs_inj in E; [|assumption..]. destruct E as [Eh E]. rewrite <- (app_nil_r (le 8 sc)), <- (app_nil_r (le 8 sc')) in E.
  apply le8_inj in E; [|assumption..]. destruct E as [-> _]. auto.
Qed.
Lemma operation_inj pl pl' i i' : pl < 2 ^ 64 -> pl' < 2 ^ 64 -> match i with Some h => h < 2 ^ 64 | None => True end ->
  match i' with Some h => h < 2 ^ 64 | None => True end -> enc_operation pl i = enc_operation pl' i' -> pl = pl' /\ i = i'.
Proof.
  intros O O' Oi Oi' E. unfold enc_operation in E. apply le8_inj in E; [|assumption..]. destruct E as [-> E]. split; [reflexivity|].
  destruct i as [x|], i' as [y|]; try discriminate E; [|reflexivity]. injection E as E. f_equal.
  assert (E' : le 8 x ++ [] = le 8 y ++ []) by (rewrite !app_nil_r; cbn [le]; congruence). apply le8_inj in E'; [|assumption..]. apply E'.
Qed.
Lemma client_requests_agree H p c c' : ok_creq c -> ok_creq c' -> no_collision H p c c' ->
  client_fingerprint H p c = client_fingerprint H p c' -> same_client_request p c c' /\ same_included p (c_headers c) (c_headers c').
Proof.
  intros (Om & Op & Oh & Os & Opl & Oi & Ov & Oe) (Om' & Op' & Oh' & Os' & Opl' & Oi' & Ov' & Oe') (R & T & Tc & To & Tv & Te) E.
  apply T in E. unfold enc_client in E.
  apply le8_inj in E; [|apply R..]. destruct E as [Ec E]. apply le8_inj in E; [|apply R..]. destruct E as [Eo E].
  apply le8_inj in E; [|apply R..]. destruct E as [Ev E].
  apply Tc, connection_inj in Ec; [|assumption..]. destruct Ec as (Em & Ep & Ei & Es).
  apply To, operation_inj in Eo; [|assumption..]. destruct Eo as [Epl Eio]. apply Tv, vars_inj in Ev; [|assumption..].
  split; [|apply included_same, Ei]. repeat (split; [assumption|]).
  assert (E' : le 8 (match c_exts c with Some e => H (enc_variables e) | None => 0 end) ++ [] = le 8 (match c_exts c' with Some e => H (enc_variables e) | None => 0 end) ++ []) by (rewrite !app_nil_r; exact E).
  destruct (c_exts c) as [e|], (c_exts c') as [e'|].
  - apply le8_inj in E'; [|apply R..]. destruct E' as [E' _]. apply vars_inj; [assumption..|]. apply Te, E'.
  - apply le8_inj in E'; [|apply R|reflexivity]. destruct E' as [E' _]. congruence.
  - apply le8_inj in E'; [|reflexivity|apply R]. destruct E' as [E' _]. congruence.
  - exact I.
Qed.
Lemma client_headers_agree p h h' n : same_included p h h' -> plain h -> plain h' -> should_include p n = true -> hget_all n h = hget_all n h'.
Proof.
  intros S0 P P' Hn. specialize (S0 n Hn). destruct (plain_all n h P) as [E L], (plain_all n h' P') as [E' L']. rewrite E, E' in S0.
  pose proof (Permutation_length S0) as Le. destruct (hget_all n h) as [|a [|]], (hget_all n h') as [|b [|]]; cbn in *; try lia; try reflexivity.
  apply Permutation_length_1 in S0. congruence.
Qed.

(** ** Witnesses *)
Definition w_uri := mkuri false "products:4001" "/graphql" None.
Definition w_req h := mksreq (MStd 2) w_uri h [123; 125].
Definition alice : headers := [("cookie", "session=alice"); ("cookie", "theme=dark")]%string.
Definition bob : headers := [("cookie", "session=bob"); ("cookie", "theme=dark")]%string.
Definition opaque (n : N) : string := String (ascii_of_N n) EmptyString.
Lemma ok_sreq_w h : ok_headers h -> ok_sreq (w_req h).
Proof. intros O. split; [reflexivity|]. split; [repeat split|]. split; [exact O|reflexivity]. Qed.
Lemma ok_two n v v' : n <> ""%string -> nonzero n = true -> no_ff n = true -> ok_headers [(n, v); (n, v')].
Proof. intros A B C. split; [|reflexivity]. intros m w [E|[E|[]]]; injection E as <- _; auto. Qed.
Lemma ok_one n v : n <> ""%string -> nonzero n = true -> no_ff n = true -> ok_headers [(n, v)].
Proof. intros A B C. split; [|reflexivity]. intros m w [E|[]]; injection E as <- _; auto. Qed.
Lemma repeated_headers_ignored : exists r r', ok_sreq r /\ ok_sreq r' /\
  (forall n v, In (n, v) (r_headers r) \/ In (n, v) (r_headers r') -> visible v = true) /\
  (forall H, fingerprint H r = fingerprint H r') /\ ~ same_headers (r_headers r) (r_headers r').
Proof.
  exists (w_req alice), (w_req bob). split; [apply ok_sreq_w, ok_two; [discriminate|reflexivity..]|].
  split; [apply ok_sreq_w, ok_two; [discriminate|reflexivity..]|]. split.
  - intros n v [H|H]; destruct H as [E|[E|[]]]; injection E as _ <-; reflexivity.
  - split; [reflexivity|]. intros E. specialize (E "cookie"%string). discriminate E.
Qed.
Lemma opaque_values_ignored : exists r r', ok_sreq r /\ ok_sreq r' /\ NoDup (map fst (r_headers r)) /\ NoDup (map fst (r_headers r')) /\
  (forall H, fingerprint H r = fingerprint H r') /\ ~ same_headers (r_headers r) (r_headers r').
Proof.
  exists (w_req [("x-user"%string, opaque 233)]), (w_req [("x-user"%string, opaque 234)]).
  split; [apply ok_sreq_w, ok_one; [discriminate|reflexivity..]|]. split; [apply ok_sreq_w, ok_one; [discriminate|reflexivity..]|].
  split; [constructor; [intros []|constructor]|]. split; [constructor; [intros []|constructor]|]. split; [reflexivity|].
  intros E. specialize (E "x-user"%string). discriminate E.
Qed.
Lemma plugin_flag_inverted : exists plugins, dedupe_flag true true plugins = true /\ shares true true plugins = false /\
  dedupe_flag true true [] = false /\ shares true true [] = true.
Proof. exists [fun _ => true]. repeat split. Qed.

Definition w_creq h := mkcreq (MStd 2) "/graphql" h 1 2 None [("id"%string, VI64 1)] None.
Lemma ok_creq_w h : ok_headers h -> ok_creq (w_creq h).
Proof.
  intros O. split; [reflexivity|]. split; [reflexivity|]. split; [exact O|]. split; [reflexivity|]. split; [reflexivity|]. split; [exact I|]. split; [|exact I].
  split; [constructor; [intros []|constructor]|]. split; [reflexivity|]. intros k v [E|[]]. injection E as <- <-. split; [reflexivity|cbn; lia].
Qed.
Lemma opaque_client_values_ignored : exists c c', ok_creq c /\ ok_creq c' /\ NoDup (map fst (c_headers c)) /\ NoDup (map fst (c_headers c')) /\
  (forall H, client_fingerprint H PAll c = client_fingerprint H PAll c') /\ ~ same_headers (c_headers c) (c_headers c').
Proof.
  exists (w_creq [("authorization"%string, opaque 233)]), (w_creq [("authorization"%string, opaque 234)]).
  split; [apply ok_creq_w, ok_one; [discriminate|reflexivity..]|]. split; [apply ok_creq_w, ok_one; [discriminate|reflexivity..]|].
  split; [constructor; [intros []|constructor]|]. split; [constructor; [intros []|constructor]|]. split; [reflexivity|].
  intros E. specialize (E "authorization"%string). discriminate E.
Qed.
Lemma client_order_ignored : exists c c', ok_creq c /\ ok_creq c' /\
  (forall n v, In (n, v) (c_headers c) \/ In (n, v) (c_headers c') -> visible v = true) /\
  (forall H, client_fingerprint H PAll c = client_fingerprint H PAll c') /\ ~ same_headers (c_headers c) (c_headers c').
Proof.
  exists (w_creq [("x-tenant", "a"); ("x-tenant", "b")]%string), (w_creq [("x-tenant", "b"); ("x-tenant", "a")]%string).
  split; [apply ok_creq_w, ok_two; [discriminate|reflexivity..]|]. split; [apply ok_creq_w, ok_two; [discriminate|reflexivity..]|].
  split; [intros n v [H|H]; destruct H as [E|[E|[]]]; injection E as _ <-; reflexivity|]. split; [reflexivity|].
  intros E. specialize (E "x-tenant"%string). discriminate E.
Qed.
