(** Proofs about the messages of graphql-transport-ws. *)
From Coq Require Import String List NArith ZArith Bool Arith Lia.
From Verif Require Import CoerceModel WhModel WhProofs MsgModel MsgSpec.
Import ListNotations.
Local Open Scope string_scope.
Local Open Scope list_scope.

Lemma in_get : forall {A} k (j : A) o, clear o -> kget k o = Some j <-> In (k, j) o.
Proof. intros A k j o C. now apply get_in. Qed.
Lemma get_without : forall k o, clear o -> kget k o = None <-> without o k.
Proof. intros k o C. split; [intros G j I; apply (in_get k j o C) in I; congruence|]. intros W. destruct (kget k o) as [j|] eqn:G; [|reflexivity]. apply (in_get k j o C) in G. destruct (W j G). Qed.
Lemma str_ok : forall k o s, clear o -> str_field k o = MOk s <-> In (k, JStr s) o.
Proof.
  intros k o s C. unfold str_field. rewrite <- (in_get k _ o C). destruct (kget k o) as [[]|]; cbn; split; try discriminate; try congruence.
Qed.
Lemma put_end : forall {A} k (v : A) acc, ~ In k (map fst acc) -> put k v acc = acc ++ [(k, v)].
Proof. intros A k v. induction acc as [|[k0 v0] acc IH]; cbn; intros N; [reflexivity|]. destruct (String.eqb_spec k k0) as [->|]; [exfalso; apply N; now left|]. f_equal. apply IH. tauto. Qed.
Lemma map_id : forall o, clear o -> to_map o = o.
Proof.
  intros o C. unfold to_map. assert (X : forall l acc : list (string * json), NoDup (map fst (acc ++ l)) -> fold_left (fun m kv => put (fst kv) (snd kv) m) l acc = acc ++ l).
  { induction l as [|[k v] l IH]; intros acc D; cbn [fold_left fst snd]; [now rewrite app_nil_r|]. assert (N : ~ In k (map fst acc)). { rewrite map_app in D. cbn in D. apply NoDup_remove_2 in D. intros I. apply D. apply in_or_app. now left. }
    rewrite (put_end k v acc N). rewrite IH; rewrite <- app_assoc; [reflexivity|exact D]. }
  exact (X o [] C).
Qed.
Lemma count_one : forall k o, clear o -> count k o <= 1.
Proof.
  intros k. unfold count, clear. induction o as [|[k0 v] o IH]; cbn; intros D; [lia|]. inversion D as [|? ? X Y]; subst. destruct (String.eqb_spec k0 k) as [->|]; [|exact (IH Y)]. cbn.
  assert (Z : filter (fun kv : string * json => String.eqb (fst kv) k) o = []); [|now rewrite Z]. clear IH D Y. induction o as [|[k1 v1] o IH]; cbn; [reflexivity|]. destruct (String.eqb_spec k1 k) as [->|]; [exfalso; apply X; now left|]. apply IH. intros I. apply X. now right.
Qed.
Lemma no_twice : forall o ks, clear o -> existsb (fun k => Nat.ltb 1 (count k o)) ks = false.
Proof. intros o ks C. induction ks as [|k ks IH]; cbn [existsb]; [reflexivity|]. apply orb_false_iff. split; [apply Nat.ltb_ge; now apply count_one|exact IH]. Qed.
Lemma opt_ok : forall {A} (read : json -> option A) (is : json -> A -> Prop) k o a, clear o -> read JNull = None -> (forall j x, In (k, j) o -> read j = Some x <-> is j x) ->
  opt_field read k o = MOk a <-> optional is o k a.
Proof.
  intros A read is k o a C NU H. unfold opt_field. split.
  - destruct (kget k o) as [j|] eqn:G; [|intros [= <-]; apply left_out; now apply get_without]. pose proof (proj1 (in_get _ _ _ C) G) as I. destruct j; try (intros [= <-]; now apply null);
      match goal with |- context [read ?j] => destruct (read j) as [x|] eqn:R; [|discriminate]; intros [= <-]; apply (given is o k j x I); now apply (H j x I) end.
  - intros O. destruct O as [W|I|j x I R].
    + apply (get_without _ _ C) in W. now rewrite W.
    + apply (in_get _ _ _ C) in I. now rewrite I.
    + pose proof (proj2 (H j x I) R) as RJ. apply (in_get _ _ _ C) in I. rewrite I. destruct j; try (now rewrite RJ). congruence.
Qed.
Lemma as_str_ok : forall j s, as_str j = Some s <-> text j s.
Proof. intros j s. unfold text. destruct j; cbn; split; try discriminate; try congruence. Qed.
Lemma as_map_ok : forall j f, clear_value j -> as_map j = Some f <-> object j f.
Proof. intros j f C. unfold object. destruct j; cbn; split; try discriminate; rewrite (map_id _ (C _ eq_refl)); congruence. Qed.

Section Client.
  Variable from_array : list json -> option spayload.
  Lemma payload_ok : forall f p, clear f -> (forall k v, In (k, v) f -> clear_value v) -> read_payload from_array (JObj f) = MOk p <-> operation f p.
  Proof.
    intros f p C V. cbn [read_payload]. rewrite (no_twice f _ C).
    assert (Q : forall q, match kget "query" f with None => MOk "" | Some j => or_err BadPayload (as_str j) end = MOk q <-> In ("query", JStr q) f \/ without f "query" /\ q = "").
    { intros q. destruct (kget "query" f) as [j|] eqn:G.
      - pose proof (proj1 (in_get _ _ _ C) G) as I. split.
        + intros E. left. destruct j; try discriminate. now injection E as ->.
        + intros [J|[W _]]; [|destruct (W _ I)]. apply (in_get _ _ _ C) in J. rewrite G in J. injection J as ->. reflexivity.
      - pose proof (proj1 (get_without _ _ C) G) as W. split; [intros [= <-]; now right|]. intros [J|[_ ->]]; [destruct (W _ J)|reflexivity]. }
    assert (N := fun a => opt_ok as_str text "operationName" f a C eq_refl (fun j x _ => as_str_ok j x)).
    assert (X := fun a => opt_ok as_map object "variables" f a C eq_refl (fun j x I => as_map_ok j x (V _ _ I))).
    assert (E := fun a => opt_ok as_map object "extensions" f a C eq_refl (fun j x I => as_map_ok j x (V _ _ I))).
    split.
    - destruct (match kget "query" f with None => MOk "" | Some j => or_err BadPayload (as_str j) end) as [q|] eqn:EQ; [|discriminate]. cbn [mbind].
      destruct (opt_field as_str "operationName" f) as [n|] eqn:EN; [|discriminate]. cbn [mbind]. destruct (opt_field as_map "variables" f) as [v|] eqn:EV; [|discriminate]. cbn [mbind]. destruct (opt_field as_map "extensions" f) as [e|] eqn:EE; [|discriminate]. cbn [mbind].
      intros [= <-]. split; [now apply Q|]. split; [now apply N|]. split; [now apply X|now apply E].
    - intros (A & B & D & F). apply Q in A. apply N in B. apply X in D. apply E in F. rewrite A, B, D, F. cbn [mbind]. now destruct p.
  Qed.
  Hypothesis NA : forall l, from_array l = None.
  Lemma client_ok : forall j m, tidy j -> read_client from_array j = MOk m <-> client_message j m.
  Proof.
    intros j m T. destruct j as [|b|z|b|s|l|o]; try (split; [discriminate|intros H; inversion H]). destruct (T o eq_refl) as [C V]. cbn [read_client]. split.
    - destruct (str_field "type" o) as [t|] eqn:TY; [|discriminate]. apply (str_ok _ _ _ C) in TY. cbn [mbind].
      destruct (String.eqb_spec t "connection_init") as [->|N1].
      { destruct (kget "payload" o) as [p|] eqn:G.
        - pose proof (proj1 (in_get _ _ _ C) G) as I. destruct p as [|b|z|b|s|l|f]; try discriminate.
          + intros [= <-]. apply c_init; [exact TY|now apply null].
          + intros [= <-]. apply c_init; [exact TY|]. rewrite (map_id f (proj1 (V _ _ I _ eq_refl))). now apply (given object o "payload" (JObj f)).
        - intros [= <-]. apply c_init; [exact TY|]. apply left_out. now apply get_without. }
      destruct (String.eqb_spec t "ping") as [->|N2]; [intros [= <-]; now apply c_ping|]. destruct (String.eqb_spec t "pong") as [->|N3]; [intros [= <-]; now apply c_pong|].
      destruct (String.eqb_spec t "subscribe") as [->|N4].
      { destruct (str_field "id" o) as [id|] eqn:ID; [|discriminate]. apply (str_ok _ _ _ C) in ID. cbn [mbind]. destruct (kget "payload" o) as [p|] eqn:G; [|discriminate]. pose proof (proj1 (in_get _ _ _ C) G) as I. cbn [or_err mbind].
        destruct p as [|b|z|b|s|l|f]; try discriminate; [cbn [read_payload]; rewrite NA; discriminate|]. destruct (V _ _ I _ eq_refl) as [CF VF]. destruct (read_payload from_array (JObj f)) as [p|] eqn:R; [|discriminate]. intros [= <-]. apply (payload_ok f p CF VF) in R. exact (c_subscribe o id f p TY ID I R). }
      destruct (String.eqb_spec t "complete") as [->|N5]; [|discriminate]. destruct (str_field "id" o) as [id|] eqn:ID; [|discriminate]. apply (str_ok _ _ _ C) in ID. intros [= <-]. now apply c_complete.
    - intros H. inversion H as [o' p TY O|o' TY|o' TY|o' id f p TY ID I O|o' id TY ID]; subst; apply (str_ok _ _ _ C) in TY; rewrite TY; cbn [mbind].
      + cbn [String.eqb Ascii.eqb Bool.eqb]. destruct O as [W|I|j x I ->].
        * apply (get_without _ _ C) in W. now rewrite W.
        * apply (in_get _ _ _ C) in I. now rewrite I.
        * pose proof (proj1 (V _ _ I _ eq_refl)) as CX. apply (in_get _ _ _ C) in I. rewrite I. now rewrite (map_id x CX).
      + reflexivity.
      + reflexivity.
      + change (mbind (str_field "id" o) (fun id => mbind (or_err (MissingField "payload") (kget "payload" o)) (fun j => mbind (read_payload from_array j) (fun p => MOk (CSubscribe id p)))) = MOk (CSubscribe id p)).
        destruct (V _ _ I _ eq_refl) as [CF VF]. apply (str_ok _ _ _ C) in ID. rewrite ID. apply (in_get _ _ _ C) in I. rewrite I. cbn [or_err mbind]. apply (payload_ok f p CF VF) in O. now rewrite O.
      + change (mbind (str_field "id" o) (fun id => MOk (CComplete id)) = MOk (CComplete id)). apply (str_ok _ _ _ C) in ID. now rewrite ID.
  Qed.
End Client.
Lemma opt_written : forall f k (x : option (list (string * json))), In (k, opt_json JObj x) f -> optional object f k x.
Proof. intros f k [x|] I; cbn in I; [now apply (given object f k (JObj x))|now apply null]. Qed.
Lemma payload_written : forall p, operation [("query", JStr (sp_query p)); ("operationName", opt_json JStr (sp_name p)); ("variables", opt_json JObj (sp_variables p)); ("extensions", opt_json JObj (sp_extensions p))] p.
Proof.
  intros p. set (f := [_; _; _; _]). split; [left; now left|]. split; [|split; apply opt_written; unfold f; cbn; tauto]. assert (I : In ("operationName", opt_json JStr (sp_name p)) f) by (right; now left). destruct (sp_name p) as [n|]; [now apply (given text f "operationName" (JStr n))|now apply null].
Qed.
Lemma written_clear : forall p f, write_payload p = JObj f -> clear_payload p -> clear f /\ forall k v, In (k, v) f -> clear_value v.
Proof.
  intros p f [= <-] [CV CE]. split; [unfold clear; cbn; repeat constructor; cbn; intuition discriminate|]. intros k v [E|[E|[E|[E|[]]]]] o ->; injection E as _ E.
  - discriminate.
  - destruct (sp_name p); discriminate.
  - destruct (sp_variables p) as [x|] eqn:X; [|discriminate]. injection E as <-. now apply CV.
  - destruct (sp_extensions p) as [x|] eqn:X; [|discriminate]. injection E as <-. now apply CE.
Qed.
Lemma client_round : forall from_array m, clear_message m -> read_client from_array (write_client m) = MOk m.
Proof.
  intros fa [[f|]| | |id p|id] C; try reflexivity.
  - change (MOk (CInit (Some (to_map f))) = MOk (CInit (Some f))). now rewrite (map_id f C).
  - change (mbind (read_payload fa (write_payload p)) (fun p => MOk (CSubscribe id p)) = MOk (CSubscribe id p)). destruct (written_clear p _ eq_refl C) as [CF VF]. unfold write_payload. now rewrite (proj2 (payload_ok fa _ p CF VF) (payload_written p)).
Qed.

Section Server.
  Variable gerror : Type.
  Variable write_error : gerror -> json.
  Variable read_error : json -> option gerror.
  Notation read := (read_server gerror read_error). Notation write := (write_server gerror write_error).
  Lemma errors_ok : forall l es, read_errors gerror read_error l = MOk es <-> Forall2 (fun j e => read_error j = Some e) l es.
  Proof.
    induction l as [|j l IH]; intros es; cbn [read_errors].
    - split; [intros [= <-]; constructor|intros H; now inversion H].
    - destruct (read_error j) as [e|] eqn:R; cbn [or_err mbind].
      + destruct (read_errors gerror read_error l) as [r|] eqn:RR; cbn [mbind].
        * split; [intros [= <-]; constructor; [exact R|now apply IH]|]. intros H. inversion H as [|? e' ? es' R' F]; subst. apply IH in F. congruence.
        * split; [discriminate|]. intros H. inversion H as [|? e' ? es' R' F]; subst. apply IH in F. discriminate.
      + split; [discriminate|]. intros H. inversion H as [|? e' ? es' R' F]; subst. congruence.
  Qed.
  Lemma server_ok : forall o m, clear o -> read (JObj o) = MOk m <-> server_message gerror (fun j e => read_error j = Some e) (JObj o) m.
  Proof.
    intros o m C. cbn [read_server]. split.
    - destruct (str_field "type" o) as [t|] eqn:TY; [|discriminate]. apply (str_ok _ _ _ C) in TY. cbn [mbind].
      destruct (String.eqb_spec t "connection_ack") as [->|_]; [intros [= <-]; now apply s_ack|]. destruct (String.eqb_spec t "ping") as [->|_]; [intros [= <-]; now apply s_ping|]. destruct (String.eqb_spec t "pong") as [->|_]; [intros [= <-]; now apply s_pong|].
      destruct (String.eqb_spec t "next") as [->|_].
      { destruct (str_field "id" o) as [id|] eqn:ID; [|discriminate]. apply (str_ok _ _ _ C) in ID. cbn [mbind]. destruct (kget "payload" o) as [p|] eqn:G; intros [= <-]; [apply s_next; auto; now apply in_get|apply s_empty; auto; now apply get_without]. }
      destruct (String.eqb_spec t "error") as [->|_].
      { destruct (str_field "id" o) as [id|] eqn:ID; [|discriminate]. apply (str_ok _ _ _ C) in ID. cbn [mbind]. destruct (kget "payload" o) as [p|] eqn:G; [|discriminate]. cbn [or_err mbind]. destruct p as [|b|z|b|s|l|f]; try discriminate. destruct (read_errors gerror read_error l) as [es|] eqn:R; [|discriminate]. intros [= <-]. apply errors_ok in R. apply (s_error _ _ o id l es); auto. now apply in_get. }
      destruct (String.eqb_spec t "complete") as [->|_]; [|discriminate]. destruct (str_field "id" o) as [id|] eqn:ID; [|discriminate]. apply (str_ok _ _ _ C) in ID. intros [= <-]. now apply s_complete.
    - intros H. inversion H as [o' TY|o' TY|o' TY|o' id p TY ID P|o' id TY ID W|o' id l es TY ID P F|o' id TY ID]; subst; apply (str_ok _ _ _ C) in TY; rewrite TY; try reflexivity; apply (str_ok _ _ _ C) in ID.
      + apply (in_get _ _ _ C) in P. cbn. rewrite ID. cbn. now rewrite P.
      + apply (get_without _ _ C) in W. cbn. rewrite ID. cbn. now rewrite W.
      + apply (in_get _ _ _ C) in P. cbn. rewrite ID. cbn. rewrite P. cbn. apply errors_ok in F. now rewrite F.
      + cbn. now rewrite ID.
  Qed.
  Lemma server_round : forall m, (forall e, read_error (write_error e) = Some e) -> read (write m) = MOk m.
  Proof.
    intros [| | |id p|id l|id] H; try reflexivity. change (mbind (read_errors gerror read_error (map write_error l)) (fun l => MOk (SError gerror id l)) = MOk (SError gerror id l)).
    assert (X : read_errors gerror read_error (map write_error l) = MOk l); [|now rewrite X]. apply errors_ok. induction l as [|e l IH]; constructor; [apply H|exact IH].
  Qed.
  Lemma to_client : forall fa m c, read_client fa (write m) = MOk c -> (m = SPing _ /\ c = CPing) \/ (m = SPong _ /\ c = CPong) \/ exists id, m = SComplete _ id /\ c = CComplete id.
  Proof. intros fa [| | |id p|id l|id] c H; cbn in H; try discriminate; injection H as <-; [now left|right; now left|right; right; now exists id]. Qed.
  Lemma to_server : forall c m, read (write_client c) = MOk m -> (m = SPing _ /\ c = CPing) \/ (m = SPong _ /\ c = CPong) \/ exists id, m = SComplete _ id /\ c = CComplete id.
  Proof. intros [p| | |id p|id] m H; cbn in H; try discriminate; injection H as <-; [now left|right; now left|right; right; now exists id]. Qed.
End Server.
