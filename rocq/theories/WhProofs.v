(** Proofs about the headers of operations over a WebSocket. *)
From Coq Require Import Ascii String List NArith ZArith Bool Lia Permutation.
From Verif Require Import StrUtil CoerceModel HeadersModel WhModel WhSpec.
Import ListNotations.
Local Open Scope string_scope.
Local Open Scope list_scope.

(** ** Maps *)
Lemma get_put : forall {A} k k' (v : A) l, kget k (put k' v l) = if String.eqb k k' then Some v else kget k l.
Proof.
  intros A k k' v. induction l as [|[k0 v0] l IH]; cbn; [reflexivity|]. destruct (String.eqb_spec k' k0) as [->|N]; cbn.
  - now destruct (String.eqb k k0).
  - rewrite IH. destruct (String.eqb_spec k k0) as [->|]; [|reflexivity]. destruct (String.eqb_spec k0 k') as [E|]; [now subst|reflexivity].
Qed.
Lemma put_keys : forall {A} k k' (v : A) l, In k (map fst (put k' v l)) -> k = k' \/ In k (map fst l).
Proof.
  intros A k k' v. induction l as [|[k0 v0] l IH]; cbn; [intros [<-|[]]; now left|]. destruct (String.eqb_spec k' k0) as [->|N]; cbn; [tauto|]. intros [<-|I]; [tauto|]. destruct (IH I); tauto.
Qed.
Lemma put_one : forall {A} k (v : A) l, one_each l -> one_each (put k v l).
Proof.
  intros A k v. unfold one_each. induction l as [|[k0 v0] l IH]; cbn; intros D; [constructor; [intros []|constructor]|]. inversion D as [|? ? X Y]; subst. destruct (String.eqb_spec k k0) as [->|N]; cbn; [now constructor|].
  constructor; [|now apply IH]. intros I. apply put_keys in I. destruct I as [E|I]; [now subst|now apply X].
Qed.
Lemma get_in : forall {A} k (v : A) l, one_each l -> kget k l = Some v <-> In (k, v) l.
Proof.
  intros A k v. unfold one_each. induction l as [|[k0 v0] l IH]; cbn; intros D; [split; [discriminate|intros []]|]. inversion D as [|? ? X Y]; subst. destruct (String.eqb_spec k k0) as [->|N].
  - split; [intros [= ->]; now left|]. intros [[= ->]|I]; [reflexivity|]. exfalso. apply X. apply in_map_iff. now exists (k0, v).
  - rewrite (IH Y). split; [now right|]. intros [[= E _]|I]; [now subst|exact I].
Qed.
Lemma get_key : forall {A} k (v : A) l, kget k l = Some v -> In (k, v) l.
Proof. intros A k v. induction l as [|[k0 v0] l IH]; cbn; [discriminate|]. destruct (String.eqb_spec k k0) as [->|N]; [intros [= ->]; now left|right; auto]. Qed.
Lemma get_puts : forall {A} (e c : list (string * A)) n, one_each e -> kget n (fold_left (fun m kv => put (fst kv) (snd kv) m) e c) = match kget n e with Some v => Some v | None => kget n c end.
Proof.
  intros A. induction e as [|[k v] e IH]; cbn; intros c n D; [reflexivity|]. inversion D as [|? ? X Y]; subst. rewrite (IH _ _ Y), get_put. destruct (String.eqb_spec n k) as [->|N]; [|reflexivity].
  destruct (kget k e) as [w|] eqn:G; [|reflexivity]. exfalso. apply X. apply in_map_iff. exists (k, w). split; [reflexivity|now apply get_key].
Qed.
Lemma puts_one : forall {A} (e c : list (string * A)), one_each c -> one_each (fold_left (fun m kv => put (fst kv) (snd kv) m) e c).
Proof. intros A. induction e as [|[k v] e IH]; cbn; intros c D; [exact D|]. apply IH. now apply put_one. Qed.
Lemma get_stores : forall h fields n, one_each h ->
  kget n (fold_left store h fields) = match kget n h with Some v => if printable v then Some (JStr v) else kget n fields | None => kget n fields end.
Proof.
  induction h as [|[k v] h IH]; cbn; intros fields n D; [reflexivity|]. inversion D as [|? ? X Y]; subst. rewrite (IH _ _ Y). unfold store. cbn [fst snd].
  assert (K : kget k h = None) by (destruct (kget k h) as [w|] eqn:G; [exfalso; apply X; apply in_map_iff; exists (k, w); split; [reflexivity|now apply get_key]|reflexivity]).
  destruct (String.eqb_spec n k) as [->|N].
  - rewrite K. destruct (printable v); [|reflexivity]. rewrite get_put. now rewrite String.eqb_refl.
  - destruct (printable v); [|reflexivity]. rewrite get_put. destruct (String.eqb_spec n k); [contradiction|reflexivity].
Qed.
Lemma stores_one : forall h fields, one_each fields -> one_each (fold_left store h fields).
Proof. induction h as [|[k v] h IH]; cbn; intros f D; [exact D|]. apply IH. unfold store. destruct (printable _); [now apply put_one|exact D]. Qed.
Lemma stores_keys : forall h fields k, In k (map fst (fold_left store h fields)) -> In k (map fst h) \/ In k (map fst fields).
Proof.
  induction h as [|[k0 v] h IH]; cbn; intros f k I; [now right|]. destruct (IH _ _ I) as [X|X]; [tauto|]. unfold store in X. cbn [fst snd] in X. destruct (printable v); [|tauto]. apply put_keys in X. destruct X as [X|X]; [left; left; now symmetry|tauto].
Qed.

(** ** Characters *)
Lemma all_in : forall p s, all_chars p s = true <-> forall c, In c (list_ascii_of_string s) -> p c = true.
Proof.
  intros p. induction s as [|c s IH]; cbn; [split; [intros _ ? []|reflexivity]|]. rewrite andb_true_iff, IH. split; [intros [X Y] d [<-|I]; auto|]. intros H. split; [apply H; now left|]. intros d I. apply H. now right.
Qed.
Lemma exists_in : forall c l, existsb (Ascii.eqb c) l = true <-> In c l.
Proof. intros c l. rewrite existsb_exists. split; [intros [x [X E]]; apply Ascii.eqb_eq in E; now subst|]. intros X. exists c. split; [exact X|apply Ascii.eqb_refl]. Qed.
Lemma name_char_token : forall c, name_char c = existsb (Ascii.eqb c) token.
Proof. intros [[] [] [] [] [] [] [] []]; vm_compute; reflexivity. Qed.
Lemma lower_token_char : forall c, existsb (Ascii.eqb c) token = true -> existsb (Ascii.eqb (lower_char c)) lower_token = true.
Proof. intros [[] [] [] [] [] [] [] []]; vm_compute; intros H; try reflexivity; discriminate H. Qed.
Lemma lower_lower_char : forall c, lower_char (lower_char c) = lower_char c.
Proof. intros [[] [] [] [] [] [] [] []]; vm_compute; reflexivity. Qed.
Lemma lower_same : forall c, In c lower_token -> lower_char c = c.
Proof. intros c I. apply exists_in in I. revert I. destruct c as [[] [] [] [] [] [] [] []]; vm_compute; intros H; try reflexivity; discriminate H. Qed.
Lemma lower_in_token : forall c, In c lower_token -> In c token.
Proof. intros c I. apply in_or_app. now left. Qed.
Lemma lower_lower : forall s, lower (lower s) = lower s.
Proof. induction s as [|c s IH]; cbn; [reflexivity|]. now rewrite lower_lower_char, IH. Qed.
Lemma lower_length : forall s, String.length (lower s) = String.length s.
Proof. induction s as [|c s IH]; cbn; [reflexivity|now rewrite IH]. Qed.
Lemma lower_chars : forall s, list_ascii_of_string (lower s) = map lower_char (list_ascii_of_string s).
Proof. induction s as [|c s IH]; cbn; [reflexivity|now rewrite IH]. Qed.
Lemma tab : forall c, N_of_ascii c = 9%N -> c = "009"%char.
Proof. intros c E. rewrite <- (ascii_N_embedding c), E. reflexivity. Qed.
Lemma value_ok : forall v, valid_value v = true <-> legal_value v.
Proof.
  intros v. unfold valid_value, legal_value. rewrite all_in. split; intros H c I; specialize (H c I).
  - unfold valid_value_char in H. apply orb_true_iff in H. rewrite andb_true_iff, negb_true_iff, N.leb_le, N.eqb_neq, N.eqb_eq in H. destruct H as [H|H]; [now right|left; now apply tab].
  - unfold valid_value_char. apply orb_true_iff. rewrite andb_true_iff, negb_true_iff, N.leb_le, N.eqb_neq, N.eqb_eq. destruct H as [->|H]; [now right|now left].
Qed.
Lemma printable_ok : forall v, printable v = true <-> ascii_value v.
Proof.
  intros v. unfold printable, ascii_value. rewrite all_in. split; intros H c I; specialize (H c I).
  - unfold visible in H. apply orb_true_iff in H. rewrite andb_true_iff, N.leb_le, N.ltb_lt, N.eqb_eq in H. destruct H as [H|H]; [now right|left; now apply tab].
  - unfold visible. apply orb_true_iff. rewrite andb_true_iff, N.leb_le, N.ltb_lt, N.eqb_eq. destruct H as [->|H]; [now right|now left].
Qed.

Lemma name_ok : forall k n, header_name k = Some n <-> k <> "" /\ (N.of_nat (String.length k) <= 65535)%N /\ (forall c, In c (list_ascii_of_string k) -> In c token) /\ lower k = n.
Proof.
  intros k n. unfold header_name. destruct (negb (String.eqb k "") && all_chars name_char k && (N.of_nat (String.length k) <=? 65535)%N) eqn:E.
  - apply andb_true_iff in E. destruct E as [E L]. apply andb_true_iff in E. destruct E as [E C]. apply negb_true_iff, String.eqb_neq in E. apply N.leb_le in L. split.
    + intros [= <-]. split; [exact E|]. split; [exact L|]. split; [|reflexivity]. intros c I. apply exists_in. rewrite <- name_char_token. exact (proj1 (all_in _ _) C c I).
    + intros (_ & _ & _ & <-). reflexivity.
  - split; [discriminate|]. intros (X & L & C & _). exfalso. apply not_true_iff_false in E. apply E. rewrite !andb_true_iff. split; [split|].
    + now apply negb_true_iff, String.eqb_neq.
    + apply all_in. intros c I. rewrite name_char_token. apply exists_in. now apply C.
    + now apply N.leb_le.
Qed.
Lemma name_legal : forall k n, header_name k = Some n -> legal_name n.
Proof.
  intros k n H. apply name_ok in H. destruct H as (X & L & C & <-). split; [|split].
  - destruct k; [now contradict X|discriminate].
  - now rewrite lower_length.
  - intros c I. rewrite lower_chars in I. apply in_map_iff in I. destruct I as [d [<- I]]. apply exists_in. apply lower_token_char. apply exists_in. now apply C.
Qed.
Lemma legal_lower : forall n, legal_name n -> lower n = n.
Proof. intros n (_ & _ & C). induction n as [|c n IH]; [reflexivity|]. cbn. rewrite IH; [|intros d I; apply C; now right]. now rewrite (lower_same c (C c (or_introl eq_refl))). Qed.
Lemma legal_itself : forall n, legal_name n -> header_name n = Some n.
Proof. intros n L. apply name_ok. pose proof (legal_lower n L) as E. destruct L as (X & L & C). split; [exact X|]. split; [exact L|]. split; [|exact E]. intros c I. apply lower_in_token. now apply C. Qed.
Lemma digits_legal : forall n, valid_value (N_to_dec n) = true.
Proof. intros n. unfold valid_value. eapply all_chars_impl; [|apply N_to_dec_digits]. intros [[] [] [] [] [] [] [] []]; vm_compute; intros H; try reflexivity; discriminate H. Qed.

Section Proofs.
  Variable float_text : N -> string.
  Notation header_text := (header_text float_text). Notation renders := (renders float_text). Notation asks := (asks float_text). Notation consistent := (consistent float_text).
  Notation add_header := (add_header float_text). Notation from_object := (from_object float_text). Notation from_init := (from_init float_text). Notation from_extensions := (from_extensions float_text).
  Notation op_headers := (op_headers float_text). Notation ops_headers := (ops_headers float_text). Notation meant := (meant float_text). Notation latest := (latest float_text). Notation suits := (suits float_text).

  Lemma text_ok : forall j v, header_text j = Some v <-> renders j v.
  Proof.
    intros j v. unfold WhModel.header_text, checked. split.
    - destruct j as [|[]|z|b|s|l|o]; try discriminate.
      + intros [= <-]. constructor.
      + intros [= <-]. constructor.
      + intros [= <-]. destruct z as [|p|p]; cbn [Z_to_dec].
        * exact (r_nat float_text 0).
        * exact (r_nat float_text (Npos p)).
        * exact (r_neg float_text (Npos p) eq_refl).
      + destruct (valid_value (float_text b)) eqn:V; [|discriminate]. intros [= <-]. constructor. now apply value_ok.
      + destruct (valid_value s) eqn:V; [|discriminate]. intros [= <-]. constructor. now apply value_ok.
    - intros R. destruct R as [s L| | |n|n P|b L].
      + apply value_ok in L. now rewrite L.
      + reflexivity.
      + reflexivity.
      + destruct n; reflexivity.
      + destruct n; [now apply N.lt_irrefl in P|reflexivity].
      + apply value_ok in L. now rewrite L.
  Qed.
  Lemma text_legal : forall j v, header_text j = Some v -> valid_value v = true.
  Proof.
    intros j v. unfold WhModel.header_text, checked. destruct j as [|[]|z|b|s|l|o]; try discriminate.
    - intros [= <-]. reflexivity.
    - intros [= <-]. reflexivity.
    - intros [= <-]. destruct z as [|p|p]; cbn [Z_to_dec]; [apply digits_legal|apply digits_legal|]. change (valid_value_char "-" && valid_value (N_to_dec (Npos p)) = true). now rewrite digits_legal.
    - destruct (valid_value (float_text b)) eqn:V; [|discriminate]. now intros [= <-].
    - destruct (valid_value s) eqn:V; [|discriminate]. now intros [= <-].
  Qed.
  Lemma asks_iff : forall l n v, asks l n v <-> exists k j, In (k, j) l /\ header_name k = Some n /\ header_text j = Some v.
  Proof.
    intros l n v. split; intros (k & j & I & H).
    - destruct H as (A & B & C & D & R). exists k, j. split; [exact I|]. split; [apply name_ok; now split|now apply text_ok].
    - destruct H as [N T]. apply name_ok in N. apply text_ok in T. exists k, j. destruct N as (A & B & C & D). now repeat split.
  Qed.
  Lemma asks_legal : forall l n v, asks l n v -> legal_name n /\ legal_value v.
  Proof. intros l n v A. apply asks_iff in A. destruct A as (k & j & _ & N & T). split; [exact (name_legal _ _ N)|]. apply value_ok. exact (text_legal _ _ T). Qed.

  (** ** Headers out of entries *)
  Lemma add_one : forall m kv, one_each m -> one_each (add_header m kv).
  Proof. intros m [k j] D. unfold WhModel.add_header. cbn. destruct (header_name k); [|exact D]. destruct (header_text j); [now apply put_one|exact D]. Qed.
  Lemma object_one : forall l, one_each (from_object l).
  Proof.
    intros l. unfold WhModel.from_object. assert (X : forall m, one_each m -> one_each (fold_left add_header l m)). { induction l as [|kv l IH]; cbn; intros m D; [exact D|]. apply IH. now apply add_one. } apply X. constructor.
  Qed.
  Lemma fold_get : forall l m n, (exists v, asks l n v /\ kget n (fold_left add_header l m) = Some v) \/ ((forall v, ~ asks l n v) /\ kget n (fold_left add_header l m) = kget n m).
  Proof.
    induction l as [|[k j] l IH]; intros m n; cbn [fold_left].
    - right. split; [|reflexivity]. intros v (k & j & [] & _).
    - destruct (IH (add_header m (k, j)) n) as [(v & A & G)|[A G]].
      + left. exists v. split; [|exact G]. destruct A as (k0 & j0 & I & R). exists k0, j0. split; [now right|exact R].
      + destruct (header_name k) as [n0|] eqn:N; [destruct (header_text j) as [v0|] eqn:T|].
        * rewrite G. unfold WhModel.add_header. cbn [fst snd]. rewrite N, T, get_put. destruct (String.eqb_spec n n0) as [->|NE].
          -- left. exists v0. split; [|reflexivity]. apply asks_iff. exists k, j. split; [now left|now split].
          -- right. split; [|reflexivity]. intros v B. apply asks_iff in B. destruct B as (k1 & j1 & [E|I] & N1 & T1); [injection E as -> ->; congruence|]. apply (A v). apply asks_iff. now exists k1, j1.
        * right. split; [|rewrite G; unfold WhModel.add_header; cbn [fst snd]; now rewrite N, T]. intros v B. apply asks_iff in B. destruct B as (k1 & j1 & [E|I] & N1 & T1); [injection E as -> ->; congruence|]. apply (A v). apply asks_iff. now exists k1, j1.
        * right. split; [|rewrite G; unfold WhModel.add_header; cbn [fst snd]; now rewrite N]. intros v B. apply asks_iff in B. destruct B as (k1 & j1 & [E|I] & N1 & T1); [injection E as -> ->; congruence|]. apply (A v). apply asks_iff. now exists k1, j1.
  Qed.
  Lemma object_sound : forall l n v, kget n (from_object l) = Some v -> asks l n v.
  Proof. intros l n v G. destruct (fold_get l [] n) as [(w & A & G')|[_ G']]; unfold WhModel.from_object in G; rewrite G' in G; [now injection G as <-|discriminate]. Qed.
  Lemma object_some : forall l n v, asks l n v -> exists w, kget n (from_object l) = Some w.
  Proof. intros l n v A. destruct (fold_get l [] n) as [(w & _ & G')|[N _]]; [now exists w|destruct (N v A)]. Qed.
  Lemma object_get : forall l n v, consistent l -> kget n (from_object l) = Some v <-> asks l n v.
  Proof. intros l n v C. split; [apply object_sound|]. intros A. destruct (object_some l n v A) as [w G]. rewrite G. f_equal. exact (C n _ _ (object_sound l n w G) A). Qed.
  Lemma asks_perm : forall l l' n v, Permutation l l' -> asks l n v -> asks l' n v.
  Proof. intros l l' n v P (k & j & I & R). exists k, j. split; [now apply (Permutation_in _ P)|exact R]. Qed.
  Lemma consistent_perm : forall l l', Permutation l l' -> consistent l -> consistent l'.
  Proof. intros l l' P C n v w A B. apply Permutation_sym in P. exact (C n v w (asks_perm _ _ _ _ P A) (asks_perm _ _ _ _ P B)). Qed.

  Lemma headers_field : forall fields, one_each fields ->
    (exists o, kget "headers" fields = Some (JObj o) /\ In ("headers", JObj o) fields) \/
    ((forall o, ~ In ("headers", JObj o) fields) /\ forall A (x : list (string * json) -> A) y, match kget "headers" fields with Some (JObj o) => x o | _ => y end = y).
  Proof.
    intros fields D. destruct (kget "headers" fields) as [j|] eqn:G.
    - destruct j as [|b|z|b|s|l|o]; try (right; split; [intros o I; apply (get_in _ _ _ D) in I; congruence|reflexivity]). left. exists o. split; [reflexivity|now apply get_key].
    - right. split; [|reflexivity]. intros o I. apply (get_in _ _ _ D) in I. congruence.
  Qed.
  Lemma init_get : forall ord p l n v, (forall x, Permutation x (ord x)) -> unique_fields p -> connection_entries p l -> consistent l -> kget n (from_init ord p) = Some v <-> asks l n v.
  Proof.
    intros ord p l n v P U E C. destruct E as [|fields o I|fields NI]; cbn [WhModel.from_init].
    - split; [discriminate|]. intros (k & j & [] & _).
    - specialize (U _ eq_refl). rewrite (proj2 (get_in _ _ _ U) I). now apply object_get.
    - specialize (U _ eq_refl). destruct (headers_field _ U) as [(o & _ & I)|[_ M]]; [destruct (NI o I)|]. rewrite (M hmap from_object (from_object (ord fields))). rewrite object_get; [|now apply (consistent_perm fields)].
      split; [|now apply asks_perm]. apply asks_perm. now apply Permutation_sym.
  Qed.
  Lemma ext_get : forall p l n v, unique_fields p -> operation_entries p l -> consistent l -> kget n (from_extensions p) = Some v <-> asks l n v.
  Proof.
    intros p l n v U E C. destruct E as [ext o I|ext NI|]; cbn [WhModel.from_extensions].
    - specialize (U _ eq_refl). rewrite (proj2 (get_in _ _ _ U) I). now apply object_get.
    - specialize (U _ eq_refl). destruct (headers_field _ U) as [(o & _ & I)|[_ M]]; [destruct (NI o I)|]. rewrite (M hmap from_object []). split; [discriminate|]. intros (k & j & [] & _).
    - split; [discriminate|]. intros (k & j & [] & _).
  Qed.
  Lemma init_one : forall ord p, one_each (from_init ord p).
  Proof. intros ord [f|]; cbn; [|constructor]. destruct (kget "headers" f) as [[]|]; apply object_one. Qed.
  Lemma ext_one : forall p, one_each (from_extensions p).
  Proof. intros [f|]; cbn; [|constructor]. destruct (kget "headers" f) as [[]|]; try constructor. apply object_one. Qed.
  Lemma op_one : forall c p o, one_each (fst (op_headers c p o)).
  Proof. intros c p o. cbn. apply puts_one. destruct (accepts_connection c); [apply init_one|constructor]. Qed.
  Lemma init_sound : forall ord p n v, kget n (from_init ord p) = Some v -> exists l, asks l n v.
  Proof. intros ord [f|] n v; cbn; [|discriminate]. destruct (kget "headers" f) as [[]|]; intros G; eexists; exact (object_sound _ _ _ G). Qed.
  Lemma ext_sound : forall p n v, kget n (from_extensions p) = Some v -> exists l, asks l n v.
  Proof. intros [f|] n v; cbn; [|discriminate]. destruct (kget "headers" f) as [[]|]; try discriminate; intros G; eexists; exact (object_sound _ _ _ G). Qed.
  Lemma op_get : forall c p o n, kget n (fst (op_headers c p o)) = match kget n (if accepts_operation c then from_extensions (o_ext o) else []) with Some v => Some v | None => kget n (if accepts_connection c then from_init (o_ord o) p else []) end.
  Proof. intros c p o n. cbn [WhModel.op_headers fst]. apply get_puts. destruct (accepts_operation c); [apply ext_one|constructor]. Qed.
  Lemma op_legal : forall c p o n v, In (n, v) (fst (op_headers c p o)) -> legal_name n /\ legal_value v.
  Proof.
    intros c p o n v I. apply (get_in _ _ _ (op_one c p o)) in I. rewrite op_get in I. destruct (kget n (if accepts_operation c then _ else _)) as [w|] eqn:G.
    - injection I as ->. destruct (accepts_operation c); [|discriminate]. destruct (ext_sound _ _ _ G) as [l A]. exact (asks_legal _ _ _ A).
    - destruct (accepts_connection c); [|discriminate]. destruct (init_sound _ _ _ _ I) as [l A]. exact (asks_legal _ _ _ A).
  Qed.
  Lemma ops_legal : forall c l p h n v, In h (ops_headers c p l) -> In (n, v) h -> legal_name n /\ legal_value v.
  Proof. intros c. induction l as [|o l IH]; intros p h n v I J; [destruct I|]. cbn [WhModel.ops_headers] in I. destruct (op_headers c p o) as [h0 p'] eqn:E. destruct I as [<-|I]; [|exact (IH _ _ _ _ I J)]. apply (op_legal c p o). now rewrite E. Qed.
  Lemma ops_one : forall c l p h, In h (ops_headers c p l) -> one_each h.
  Proof. intros c. induction l as [|o l IH]; intros p h I; [destruct I|]. cbn [WhModel.ops_headers] in I. destruct (op_headers c p o) as [h0 p'] eqn:E. destruct I as [<-|I]; [|exact (IH _ _ I)]. pose proof (op_one c p o) as O. now rewrite E in O. Qed.

  (** ** One operation *)
  Lemma op_meant : forall c p o conn ext n v, fair o -> unique_fields p -> unique_fields (o_ext o) -> connection_entries p conn -> operation_entries (o_ext o) ext -> consistent conn -> consistent ext ->
    has (fst (op_headers c p o)) n v <-> meant (w_source c) conn ext n v.
  Proof.
    intros c p o conn ext n v P U U' EC EO C C'. unfold has. rewrite <- (get_in _ _ _ (op_one c p o)), op_get.
    pose proof (fun v => init_get (o_ord o) p conn n v P U EC C) as IG. pose proof (fun v => ext_get (o_ext o) ext n v U' EO C') as EG. unfold accepts_connection, accepts_operation. destruct (w_source c); cbn [WhSpec.meant kget].
    - split; [discriminate|intros []].
    - apply IG.
    - rewrite <- EG. destruct (kget n (from_extensions (o_ext o))); [reflexivity|]. split; discriminate.
    - unfold over. rewrite <- EG, <- IG. destruct (kget n (from_extensions (o_ext o))) as [w|] eqn:G.
      + split; [now left|]. intros [H|[H _]]; [exact H|]. exfalso. apply H. exists w. now apply EG.
      + split; [|intros [H|[_ H]]; [discriminate|exact H]]. intros H. right. split; [|exact H]. intros [w A]. apply EG in A. congruence.
  Qed.
  Lemma ops_forget : forall c l p, w_persist c = false -> ops_headers c p l = map (fun o => fst (op_headers c p o)) l.
  Proof. intros c. induction l as [|o l IH]; intros p E; [reflexivity|]. cbn [WhModel.ops_headers map]. unfold WhModel.op_headers at 1. rewrite E. now rewrite (IH p E). Qed.

  (** ** Remembering *)
  Lemma store_flat : forall h fields, one_each h -> flat fields -> flat (fold_left store h fields).
  Proof.
    intros h fields D [O N]. split; [now apply stores_one|]. intros o I. apply get_in in I; [|now apply stores_one]. rewrite (get_stores _ _ _ D) in I.
    assert (X : kget "headers" fields <> Some (JObj o)) by (intros G; apply (N o); now apply get_key). destruct (kget "headers" h) as [v|]; [destruct (printable v); [discriminate|]|]; contradiction.
  Qed.
  (** Entries after the headers are stored *)
  Lemma store_asks : forall h fields n v, one_each h -> one_each fields -> (forall k x, In (k, x) h -> legal_name k /\ legal_value x) ->
    asks (fold_left store h fields) n v <->
    (kget n h = Some v /\ printable v = true) \/ exists k j, In (k, j) fields /\ header_name k = Some n /\ header_text j = Some v /\ forall x, kget k h = Some x -> printable x = false.
  Proof.
    intros h fields n v D O L. rewrite asks_iff. split.
    - intros (k & j & I & N & T). apply get_in in I; [|now apply stores_one]. rewrite (get_stores _ _ _ D) in I. destruct (kget k h) as [x|] eqn:G.
      + destruct (printable x) eqn:PX.
        * injection I as <-. left. pose proof (proj1 (L _ _ (get_key _ _ _ G))) as LK. rewrite (legal_itself _ LK) in N. injection N as <-. cbn in T. unfold checked in T. destruct (valid_value x); [|discriminate]. injection T as <-. now split.
        * right. exists k, j. split; [now apply get_key|]. split; [exact N|]. split; [exact T|]. intros y Y. congruence.
      + right. exists k, j. split; [now apply get_key|]. split; [exact N|]. split; [exact T|]. intros y Y. congruence.
    - intros [[G PV]|(k & j & I & N & T & X)].
      + exists n, (JStr v). destruct (L _ _ (get_key _ _ _ G)) as [LN LV]. split; [|split; [now apply legal_itself|]].
        * apply get_in; [now apply stores_one|]. rewrite (get_stores _ _ _ D), G. now rewrite PV.
        * cbn. unfold checked. now rewrite (proj2 (value_ok _) LV).
      + exists k, j. split; [|now split]. apply get_in; [now apply stores_one|]. rewrite (get_stores _ _ _ D). apply (get_in _ _ _ O) in I. destruct (kget k h) as [x|]; [now rewrite (X x eq_refl)|exact I].
  Qed.
  Lemma flat_entries : forall fields, flat fields -> connection_entries (Some fields) fields.
  Proof. intros f [_ N]. now apply in_fields. Qed.
  Lemma flat_unique : forall fields, flat fields -> unique_fields (Some fields).
  Proof. intros f [O _] g [= <-]. exact O. Qed.
  Lemma op_state : forall c fields o, snd (op_headers c (Some fields) o) = Some (if w_persist c then fold_left store (fst (op_headers c (Some fields) o)) fields else fields).
  Proof. intros c fields o. cbn. now destruct (w_persist c). Qed.
  (** The connection alone *)
  Lemma conn_keeps : forall c fields o, w_source c = FromConnection -> fair o -> flat fields -> consistent fields ->
    exists fields', snd (op_headers c (Some fields) o) = Some fields' /\ flat fields' /\ forall n v, asks fields' n v <-> asks fields n v.
  Proof.
    intros c fields o S P FL C. rewrite op_state. destruct (w_persist c); [|exists fields; split; [reflexivity|split; [exact FL|reflexivity]]].
    remember (fst (op_headers c (Some fields) o)) as h eqn:H. pose proof (op_one c (Some fields) o) as D. pose proof (op_legal c (Some fields) o) as L. rewrite <- H in D, L.
    assert (G : forall n v, kget n h = Some v <-> asks fields n v). { intros n v. rewrite H, op_get. unfold accepts_operation, accepts_connection. rewrite S. cbn [kget]. apply init_get; [exact P|now apply flat_unique|now apply flat_entries|exact C]. }
    exists (fold_left store h fields). split; [reflexivity|]. split; [now apply store_flat|]. intros n v. rewrite (store_asks h fields n v D (proj1 FL) (fun k x => L k x)). split.
    - intros [[X _]|(k & j & I & N & T & _)]; [now apply G|]. apply asks_iff. now exists k, j.
    - intros A. pose proof A as A'. apply asks_iff in A'. destruct A' as (k & j & I & N & T). destruct (kget k h) as [x|] eqn:GK.
      + destruct (printable x) eqn:PX.
        * left. pose proof (proj1 (L _ _ (get_key _ _ _ GK))) as LK. rewrite (legal_itself _ LK) in N. injection N as <-. pose proof (C _ _ _ A (proj1 (G _ _) GK)) as ->. now split.
        * right. exists k, j. split; [exact I|]. split; [exact N|]. split; [exact T|]. intros y Y. congruence.
      + right. exists k, j. split; [exact I|]. split; [exact N|]. split; [exact T|]. intros y Y. congruence.
  Qed.
  Lemma conn_always : forall c l fields h, w_source c = FromConnection -> Forall fair l -> flat fields -> consistent fields -> In h (ops_headers c (Some fields) l) -> forall n v, has h n v <-> asks fields n v.
  Proof.
    intros c. induction l as [|o l IH]; intros fields h S FA FL C I n v; [destruct I|]. inversion FA as [|? ? P FA']; subst. destruct (conn_keeps c fields o S P FL C) as (fields' & E & FL' & A). cbn [WhModel.ops_headers] in I. destruct (op_headers c (Some fields) o) as [h0 p'] eqn:EO. cbn [snd] in E. subst p'. destruct I as [<-|I].
    - assert (X : h0 = fst (op_headers c (Some fields) o)) by now rewrite EO. rewrite X. unfold has. rewrite <- (get_in _ _ _ (op_one c _ o)), op_get. unfold accepts_operation, accepts_connection. rewrite S. cbn [kget]. apply init_get; [exact P|now apply flat_unique|now apply flat_entries|exact C].
    - rewrite <- A. apply (IH fields' h S FA' FL'); [|exact I]. intros m x y X Y. exact (C m x y (proj1 (A _ _) X) (proj1 (A _ _) Y)).
  Qed.

  (** Both *)
  Lemma lowered_consistent : forall fields, lowered fields -> consistent fields.
  Proof.
    intros f [[O _] K] n v w A B. apply asks_iff in A, B. destruct A as (k & j & I & N & T). destruct B as (k' & j' & I' & N' & T'). apply name_ok in N, N'. destruct N as (_ & _ & _ & N), N' as (_ & _ & _ & N'). rewrite (K _ _ I) in N. rewrite (K _ _ I') in N'. subst k k'.
    apply (get_in _ _ _ O) in I, I'. congruence.
  Qed.
  Lemma both_step : forall fields o e, lowered fields -> suits o e ->
    exists fields', snd (op_headers (mkwconfig FromBoth true) (Some fields) o) = Some fields' /\ lowered fields' /\ forall n v, asks fields' n v <-> over (asks e) (asks fields) n v.
  Proof.
    intros fields o e LO (P & U & EO & CE & AV). pose proof (lowered_consistent _ LO) as C. destruct LO as [FL K]. rewrite op_state. cbn [w_persist]. set (c := mkwconfig FromBoth true). remember (fst (op_headers c (Some fields) o)) as h eqn:H. pose proof (op_one c (Some fields) o) as D. pose proof (op_legal c (Some fields) o) as L. rewrite <- H in D, L.
    assert (G : forall n v, kget n h = Some v <-> over (asks e) (asks fields) n v).
    { intros n v. rewrite H. rewrite (get_in _ _ _ (op_one c (Some fields) o)). apply (op_meant c (Some fields) o fields e n v P (flat_unique _ FL) U (flat_entries _ FL) EO C CE). }
    exists (fold_left store h fields). split; [reflexivity|]. split; [split; [now apply store_flat|]|].
    - intros k j I. assert (X : In k (map fst (fold_left store h fields))) by (apply in_map_iff; now exists (k, j)). apply stores_keys in X. destruct X as [X|X]; apply in_map_iff in X; destruct X as [[k0 y] [<- X]]; [apply legal_lower; exact (proj1 (L _ _ X))|exact (K _ _ X)].
    - intros n v. rewrite (store_asks h fields n v D (proj1 FL) (fun k x => L k x)), <- G. split.
      + intros [[X _]|(k & j & I & N & T & NP)]; [exact X|]. pose proof N as N'. apply name_ok in N'. destruct N' as (_ & _ & _ & N'). rewrite (K _ _ I) in N'. subst k.
        assert (A : asks fields n v) by (apply asks_iff; now exists n, j). destruct (kget n h) as [x|] eqn:GN.
        * specialize (NP _ eq_refl). apply (proj1 (G _ _)) in GN. destruct GN as [Y|[_ Y]]; [|now rewrite (C _ _ _ A Y)]. apply AV, printable_ok in Y. congruence.
        * exfalso. destruct (kget n (from_extensions (o_ext o))) as [w|] eqn:GE.
          -- apply (ext_get _ e n w U EO CE) in GE. assert (Z : kget n h = Some w) by (apply G; now left). congruence.
          -- assert (Z : kget n h = Some v); [|congruence]. apply G. right. split; [|exact A]. intros [w W]. apply (ext_get _ e n w U EO CE) in W. congruence.
      + intros X0. destruct (printable v) eqn:PV; [left; now split|]. right. pose proof X0 as X. apply G in X. destruct X as [X|[_ X]]; [apply AV, printable_ok in X; congruence|]. pose proof X as X'. apply asks_iff in X'. destruct X' as (k & j & I & N & T). exists k, j. split; [exact I|]. split; [exact N|]. split; [exact T|].
        pose proof N as N'. apply name_ok in N'. destruct N' as (_ & _ & _ & N'). rewrite (K _ _ I) in N'. subst k. intros y Y. congruence.
  Qed.
  Lemma over_iff : forall a b b' : string -> string -> Prop, (forall n v, b n v <-> b' n v) -> forall n v, over a b n v <-> over a b' n v.
  Proof. intros a b b' H n v. unfold over. now rewrite H. Qed.
  Lemma latest_base : forall es fields fields' e, (forall n v, asks fields' n v <-> over (asks e) (asks fields) n v) -> forall n v, latest fields' es n v <-> latest fields (es ++ [e]) n v.
  Proof. induction es as [|x es IH]; intros f f' e H n v; cbn [WhSpec.latest app]; [apply H|]. apply over_iff. now apply IH. Qed.
  Lemma both_latest : forall before fields o after eb e h n v, lowered fields -> Forall2 suits before eb -> suits o e ->
    nth_error (ops_headers (mkwconfig FromBoth true) (Some fields) (before ++ o :: after)) (length before) = Some h ->
    has h n v <-> latest fields (e :: rev eb) n v.
  Proof.
    induction before as [|b before IH]; intros fields o after eb e h n v LO FB SO H.
    - inversion FB; subst. cbn [app WhModel.ops_headers length] in H. destruct (op_headers (mkwconfig FromBoth true) (Some fields) o) as [h0 p'] eqn:E. cbn in H. injection H as <-.
      assert (X : h0 = fst (op_headers (mkwconfig FromBoth true) (Some fields) o)) by now rewrite E. rewrite X. destruct SO as (P & U & EO & CE & _). destruct (LO) as [FL _]. exact (op_meant _ (Some fields) o fields e n v P (flat_unique _ FL) U (flat_entries _ FL) EO (lowered_consistent _ LO) CE).
    - inversion FB as [|? e0 ? eb' S0 FB']; subst. destruct (both_step fields b e0 LO S0) as (fields' & E & LO' & A). cbn [app WhModel.ops_headers length] in H. destruct (op_headers (mkwconfig FromBoth true) (Some fields) b) as [h0 p'] eqn:EB. cbn [snd] in E. subst p'. cbn [nth_error] in H.
      rewrite (IH fields' o after eb' e h n v LO' FB' SO H). cbn [rev]. rewrite app_comm_cons. now apply latest_base.
  Qed.

  (** ** From router to router *)
  Lemma relay : forall ord h n v, (forall l, Permutation l (ord l)) -> one_each h -> (forall k x, In (k, x) h -> legal_name k /\ legal_value x) ->
    has (from_init ord (Some (to_payload h))) n v <-> In (n, v) h /\ ascii_value v.
  Proof.
    intros ord h n v P D L. assert (FL : flat (to_payload h)) by (apply store_flat; [exact D|split; [constructor|intros o []]]).
    assert (A : forall m x, asks (to_payload h) m x <-> kget m h = Some x /\ printable x = true).
    { intros m x. unfold to_payload. rewrite (store_asks h [] m x D (NoDup_nil _) L). split; [|now left]. intros [X|(k & j & [] & _)]. exact X. }
    unfold has. rewrite <- (get_in _ _ _ (init_one ord _)), (init_get ord _ _ n v P (flat_unique _ FL) (flat_entries _ FL)).
    - rewrite A, <- printable_ok, (get_in _ _ _ D). reflexivity.
    - intros m x y X Y. apply A in X, Y. destruct X as [X _], Y as [Y _]. congruence.
  Qed.
End Proofs.
