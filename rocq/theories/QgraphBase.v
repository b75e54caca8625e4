(** Names of nodes, and what the loops of the builder collect. *)
From Coq Require Import Ascii String List NArith Bool Arith Lia.
From Verif Require Import StrOrd StrUtil Ast QplanModel QplanGroup OverrideModel NormModel PathModel OpwalkModel QgraphModel QgraphSpec.
Import ListNotations.
Local Open Scope string_scope.
Local Open Scope list_scope.

(** ** Names *)
Lemma split_sep : forall (P : ascii -> bool) a b c d x y,
  (forall z, In z (list_ascii_of_string a) -> P z = false) -> (forall z, In z (list_ascii_of_string b) -> P z = false) -> P c = true -> P d = true ->
  (a ++ String c x)%string = (b ++ String d y)%string -> a = b /\ c = d /\ x = y.
Proof.
  intros P a. induction a as [|u a IH]; intros [|w b] c d x y A B C D E.
  - cbn in E. injection E as -> ->. auto.
  - cbn in E. injection E as -> _. rewrite (B w) in C by now left. discriminate.
  - cbn in E. injection E as -> _. rewrite (A d) in D by now left. discriminate.
  - cbn in E. injection E as -> E. destruct (IH b c d x y) as (-> & -> & ->); auto; intros z I; [apply A|apply B]; now right.
Qed.
Lemma no_sep : forall (P : ascii -> bool) a b d y, (forall z, In z (list_ascii_of_string a) -> P z = false) -> P d = true -> a = (b ++ String d y)%string -> False.
Proof.
  intros P a b. revert a. induction b as [|w b IH]; intros a d y A D ->.
  - rewrite (A d) in D by now left. discriminate.
  - apply (IH (b ++ String d y)%string d y); [|exact D|reflexivity]. intros z I. apply A. now right.
Qed.
Definition is_char (c z : ascii) : bool := Ascii.eqb c z.
Lemma without_is : forall c x, without c x -> forall z, In z (list_ascii_of_string x) -> is_char c z = false.
Proof. intros c x W z I. unfold is_char. destruct (Ascii.eqb_spec c z); [subst; contradiction|reflexivity]. Qed.
Definition is_sep (z : ascii) : bool := is_char "/" z || is_char " " z.
Lemma clean_sep : forall g, clean_graph g -> forall z, In z (list_ascii_of_string g) -> is_sep z = false.
Proof. intros g [A B] z I. unfold is_sep. now rewrite (without_is _ _ A z I), (without_is _ _ B z I). Qed.

Definition clean_place (p : place) : Prop :=
  match p with
  | PRoot n => clean_type n
  | PType t g => clean_type t /\ clean_graph g
  | PView t g _ => clean_type t /\ clean_graph g
  | PMember t g o f m => clean_type t /\ clean_graph g /\ clean_type o /\ without ":"%char f
  end.
Definition label_of (p : place) : string :=
  (match p with
   | PRoot n => "root(" ++ n ++ ")"
   | PType t g => t ++ "/" ++ g
   | PView t g v => t ++ "/" ++ g ++ "/" ++ N_to_dec v
   | PMember t g o f m => t ++ "/" ++ g ++ " for " ++ o ++ "." ++ f ++ ":" ++ m
   end)%string.
Lemma display_label : forall n, display n = label_of (place_of n).
Proof. intros [k n|n g i [[|v|t f o ms]|]]; reflexivity. Qed.
Lemma list_app : forall a b, list_ascii_of_string (a ++ b) = list_ascii_of_string a ++ list_ascii_of_string b.
Proof. induction a as [|c a IH]; intros b; [reflexivity|]. cbn. now rewrite IH. Qed.
Lemma string_tail : forall c a b, (a ++ String c "")%string = (b ++ String c "")%string -> a = b.
Proof.
  intros c a. induction a as [|x a IH]; intros [|y b] E; try reflexivity.
  - cbn in E. injection E as _ E. destruct b; discriminate.
  - cbn in E. injection E as _ E. destruct a; discriminate.
  - cbn in E. injection E as -> E. now rewrite (IH _ E).
Qed.
Lemma label_inj : forall p q, clean_place p -> clean_place q -> label_of p = label_of q -> p = q.
Proof.
  assert (R : forall n t rest, clean_type n -> clean_type t -> ("root(" ++ n ++ ")")%string <> (t ++ "/" ++ rest)%string).
  { intros n t rest [N _] _ E. apply (no_sep (is_char "/") _ _ "/"%char rest) in E; [exact E| |reflexivity].
    intros z I. rewrite !list_app in I. apply in_app_or in I. destruct I as [I|I]; [|apply in_app_or in I; destruct I as [I|I]].
    - cbn in I. repeat (destruct I as [<-|I]; [reflexivity|]). destruct I.
    - now apply (without_is _ _ N).
    - cbn in I. destruct I as [<-|[]]. reflexivity. }
  assert (T : forall t t' r r', clean_type t -> clean_type t' -> (t ++ "/" ++ r)%string = (t' ++ "/" ++ r')%string -> t = t' /\ r = r').
  { intros t t' r r' [A _] [B _] E. apply (split_sep (is_char "/") t t' "/" "/") in E; [destruct E as (-> & _ & ->); auto|now apply without_is|now apply without_is|reflexivity|reflexivity]. }
  assert (G : forall g g' c d x y, clean_graph g -> clean_graph g' -> is_sep c = true -> is_sep d = true -> (g ++ String c x)%string = (g' ++ String d y)%string -> g = g' /\ c = d /\ x = y).
  { intros g g' c d x y A B C D E. apply (split_sep is_sep g g' c d); auto; now apply clean_sep. }
  assert (NG : forall g g' d y, clean_graph g -> is_sep d = true -> g = (g' ++ String d y)%string -> False).
  { intros g g' d y A D E. apply (no_sep is_sep g g' d y); auto. now apply clean_sep. }
  intros [n|t g|t g v|t g o f m] [n'|t' g'|t' g' v'|t' g' o' f' m'] P Q E; cbn [clean_place label_of] in *;
    try (exfalso; exact (R _ _ _ P (proj1 Q) E)); try (exfalso; exact (R _ _ _ Q (proj1 P) (eq_sym E)));
    try (apply T in E; [destruct E as [-> E]|exact (proj1 P)|exact (proj1 Q)]).
  - cbn in E. injection E as E. apply string_tail in E. now subst.
  - now subst.
  - exfalso. apply (NG g g' "/"%char (N_to_dec v')); [tauto|reflexivity|exact E].
  - exfalso. apply (NG g g' " "%char ("for " ++ o' ++ "." ++ f' ++ ":" ++ m')%string); [tauto|reflexivity|exact E].
  - exfalso. apply (NG g' g "/"%char (N_to_dec v)); [tauto|reflexivity|now symmetry].
  - apply (G g g' "/"%char "/"%char (N_to_dec v) (N_to_dec v')) in E; [|tauto|tauto|reflexivity|reflexivity]. destruct E as (-> & _ & E). apply N_to_dec_inj in E. now subst.
  - exfalso. apply (G g g' "/"%char " "%char (N_to_dec v) ("for " ++ o' ++ "." ++ f' ++ ":" ++ m')%string) in E; [|tauto|tauto|reflexivity|reflexivity]. destruct E as (_ & E & _). discriminate.
  - exfalso. apply (NG g' g " "%char ("for " ++ o ++ "." ++ f ++ ":" ++ m)%string); [tauto|reflexivity|now symmetry].
  - exfalso. apply (G g g' " "%char "/"%char ("for " ++ o ++ "." ++ f ++ ":" ++ m)%string (N_to_dec v')) in E; [|tauto|tauto|reflexivity|reflexivity]. destruct E as (_ & E & _). discriminate.
  - apply (G g g' " "%char " "%char ("for " ++ o ++ "." ++ f ++ ":" ++ m)%string ("for " ++ o' ++ "." ++ f' ++ ":" ++ m')%string) in E; [|tauto|tauto|reflexivity|reflexivity].
    destruct E as (-> & _ & E). cbn in E. injection E as E. destruct P as (_ & _ & [_ P] & F). destruct Q as (_ & _ & [_ Q] & F').
    apply (split_sep (is_char ".") o o' "."%char "."%char (f ++ ":" ++ m)%string (f' ++ ":" ++ m')%string) in E; [|now apply without_is|now apply without_is|reflexivity|reflexivity]. destruct E as (-> & _ & E).
    apply (split_sep (is_char ":") f f' ":"%char ":"%char m m') in E; [|now apply without_is|now apply without_is|reflexivity|reflexivity]. destruct E as (-> & _ & ->). reflexivity.
Qed.

(** ** Loops *)
Lemma bbind_ok : forall {A B} (r : bres A) (f : A -> bres B) b, bbind r f = BOk b <-> exists a, r = BOk a /\ f a = BOk b.
Proof. intros A B [a|e|] f b; cbn; split; [intros E; now exists a|now intros [x [[= ->] E]]|discriminate|now intros [x [[=] _]]|discriminate|now intros [x [[=] _]]]. Qed.
Lemma beach_in : forall {A B} (f : A -> bres (list B)) l r, beach f l = BOk r -> forall y, In y r <-> exists x a, In x l /\ f x = BOk a /\ In y a.
Proof.
  intros A B f l. induction l as [|x l IH]; intros r E y; cbn in E.
  - injection E as <-. split; [intros []|now intros [x [a [[] _]]]].
  - apply bbind_ok in E. destruct E as [a [E1 E]]. apply bbind_ok in E. destruct E as [b [E2 E]]. injection E as <-. rewrite in_app_iff, (IH _ E2 y). split.
    + intros [I|[x' [a' [I [F J]]]]]; [exists x, a; split; [now left|now split]|exists x', a'; split; [now right|now split]].
    + intros [x' [a' [[<-|I] [F J]]]]; [left; rewrite E1 in F; now injection F as ->|right; now exists x', a'].
Qed.
Lemma beach_all : forall {A B} (f : A -> bres (list B)) l r, beach f l = BOk r -> forall x, In x l -> exists a, f x = BOk a.
Proof.
  intros A B f l. induction l as [|x l IH]; intros r E y I; [destruct I|]. cbn in E. apply bbind_ok in E. destruct E as [a [E1 E]]. apply bbind_ok in E. destruct E as [b [E2 E]].
  destruct I as [<-|I]; [now exists a|exact (IH _ E2 y I)].
Qed.
Lemma beach_put : forall {A B} (f : A -> bres (list B)) l r x a y, beach f l = BOk r -> In x l -> f x = BOk a -> In y a -> In y r.
Proof. intros A B f l r x a y E I F J. apply (beach_in f l r E). now exists x, a. Qed.
Lemma panic_ok : forall {A} (o : option A) a, or_panic o = BOk a <-> o = Some a.
Proof. intros A [x|] a; cbn; split; congruence. Qed.

Lemma lookup_in : forall {A} k (l : list (string * A)) v, lookup k l = Some v -> In (k, v) l.
Proof.
  intros A k l v. induction l as [|[k' v'] l IH]; cbn; [discriminate|]. destruct (String.eqb_spec k k') as [->|]; [intros [= ->]; now left|intros E; right; now apply IH].
Qed.
Lemma in_lookup : forall {A} k (l : list (string * A)) v, NoDup (map fst l) -> In (k, v) l -> lookup k l = Some v.
Proof.
  intros A k l v. induction l as [|[k' v'] l IH]; intros N I; [destruct I|]. inversion N as [|? ? N1 N2]; subst. cbn. destruct I as [E|I].
  - injection E as -> ->. now rewrite String.eqb_refl.
  - destruct (String.eqb_spec k k') as [->|]; [|now apply IH]. exfalso. apply N1. change k' with (fst (k', v)). now apply in_map.
Qed.
Lemma one_of : forall {A} k (l : list (string * A)) v w, NoDup (map fst l) -> In (k, v) l -> In (k, w) l -> v = w.
Proof. intros A k l v w N I J. apply (in_lookup _ _ _ N) in I. apply (in_lookup _ _ _ N) in J. congruence. Qed.
Lemma one_key : forall {A} k k' (l : list (A * string)) , NoDup (map snd l) -> forall x y, In (x, k) l -> In (y, k') l -> k = k' -> x = y.
Proof.
  intros A k k' l N x y I J <-. induction l as [|[a b] l IH]; [destruct I|]. inversion N as [|? ? N1 N2]; subst. destruct I as [E|I], J as [F|J].
  - congruence.
  - injection E as -> ->. exfalso. apply N1. change k with (snd (y, k)). now apply in_map.
  - injection F as -> ->. exfalso. apply N1. change k with (snd (x, k)). now apply in_map.
  - now apply IH.
Qed.
Lemma has_iff : forall k l, has k l = true <-> In k l.
Proof.
  intros k l. unfold has. rewrite existsb_exists. split; [intros [x [I E]]; apply String.eqb_eq in E; now subst|intros I; exists k; split; [exact I|apply String.eqb_refl]].
Qed.
Lemma insert_in : forall {A} (key : A -> string) a l x, In x (insert_by key a l) <-> x = a \/ In x l.
Proof.
  intros A key a l x. induction l as [|b l IH]; cbn; [intuition|]. destruct (String.compare (key a) (key b)); cbn; try rewrite IH; intuition.
Qed.
Lemma sort_in : forall {A} (key : A -> string) l x, In x (NormModel.sort_by key l) <-> In x l.
Proof. intros A key l x. unfold NormModel.sort_by. induction l as [|a l IH]; cbn; [reflexivity|]. rewrite insert_in, IH. intuition. Qed.
Lemma subgraphs_in : forall d id, In id (subgraphs d) <-> lives d id.
Proof. intros d id. unfold subgraphs. rewrite sort_in, in_map_iff. unfold lives. split; intros [j [A B]]; exists j; now split. Qed.
