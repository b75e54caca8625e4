(** Requests that show what the router refuses or accepts against its documentation. *)
From Coq Require Import String Ascii List NArith Bool Lia.
From Verif Require Import StrUtil JwtModel JwtSpec JwtText JwtProofs.
Import ListNotations.
Local Open Scope string_scope.
Local Open Scope list_scope.

Definition bearer : list location := [InHeader "Authorization" (Some "Bearer")].
Definition plain_config (ls : list location) (auds : option (list string)) : config := mkconfig ls None auds (Some true) (Some [RS256]) None.
Definition any_header (kid : option string) (_ : string) : option header := Some (mkheader RS256 kid).
Definition any_claims (aud : option audience) (nbf : option N) (_ : string) : option claims :=
  Some (mkclaims (Some "us") aud (Some 2000%N) nbf [("scope", CStr "a b")]).
Definition all_usable (_ : string) : bool := true.
Definition all_fit (_ : string) (_ : alg) : bool := true.
Definition good_signs (m : string) (_ : alg) (_ : string) : bool := String.eqb m "good".

Definition good (kid : option string) (a : option key_algorithm) : jwk := mkjwk kid a "good".
Definition bad (kid : option string) (a : option key_algorithm) : jwk := mkjwk kid a "bad".
Definition request : headers := [("authorization", "Bearer tok")].
Definition now : N := 1000000%N.

Lemma request_found : found bearer request (Ok (Some "Bearer", "tok")).
Proof. apply lookup_found. reflexivity. Qed.
Lemma good_verifies cfg kid k : g_algorithms cfg = Some [RS256] -> k_material k = "good" -> k_alg k = None \/ k_alg k = Some (Signs RS256) ->
  verifies cfg (any_header kid) all_usable all_fit good_signs k "tok".
Proof.
  intros A M K. exists (mkheader RS256 kid). repeat split; [unfold good_signs; rewrite M; reflexivity|exact K|].
  intros m E. rewrite A in E. injection E as <-. now left.
Qed.
Lemma plain_acceptable ls nbf : acceptable (plain_config ls None) (any_claims None nbf) (now / 1000) "tok"
  (mkclaims (Some "us") None (Some 2000%N) nbf [("scope", CStr "a b")]).
Proof.
  split; [reflexivity|]. split; [exists 2000%N; split; [reflexivity|discriminate]|]. split; intro H; now contradiction H.
Qed.
Lemma force srcs s set : In s srcs -> s_set s = Some set -> s_locked s = false -> in_force [Keys srcs] set.
Proof. intros I S L. exists [], srcs, [], s. repeat split; auto. Qed.

Definition two (a b : jwk) : list event := [Keys [mksource (Some [a]) false; mksource (Some [b]) false]].
Lemma shared_kid : refused_though_valid (plain_config bearer None) (any_header (Some "1")) all_usable all_fit good_signs (any_claims None None)
  (two (bad (Some "1") None) (good (Some "1") None)) now request.
Proof.
  exists (Some "Bearer"), "tok", [good (Some "1") None], (good (Some "1") None), (mkclaims (Some "us") None (Some 2000%N) None [("scope", CStr "a b")]).
  split; [apply request_found|]. split; [apply (force _ (mksource (Some [good (Some "1") None]) false)); [right; left; reflexivity|reflexivity|reflexivity]|].
  split; [now left|]. split; [apply good_verifies; auto|]. split; [apply plain_acceptable|].
  intro x. vm_compute. discriminate.
Qed.
Lemma encryption_key : refused_though_valid (plain_config bearer None) (any_header None) all_usable all_fit good_signs (any_claims None None)
  (two (bad (Some "e") (Some (Other "RSA-OAEP"))) (good (Some "1") (Some (Signs RS256)))) now request.
Proof.
  exists (Some "Bearer"), "tok", [good (Some "1") (Some (Signs RS256))], (good (Some "1") (Some (Signs RS256))), (mkclaims (Some "us") None (Some 2000%N) None [("scope", CStr "a b")]).
  split; [apply request_found|]. split; [apply (force _ (mksource (Some [good (Some "1") (Some (Signs RS256))]) false)); [right; left; reflexivity|reflexivity|reflexivity]|].
  split; [now left|]. split; [apply good_verifies; auto|]. split; [apply plain_acceptable|].
  intro x. vm_compute. discriminate.
Qed.
(** Neither a key id nor algorithms on the keys: nothing to pick a set by *)
Lemma no_algorithm : refused_though_valid (plain_config bearer None) (any_header None) all_usable all_fit good_signs (any_claims None None)
  [Keys [mksource (Some [good None None]) false]] now request.
Proof.
  exists (Some "Bearer"), "tok", [good None None], (good None None), (mkclaims (Some "us") None (Some 2000%N) None [("scope", CStr "a b")]).
  split; [apply request_found|]. split; [apply (force _ (mksource (Some [good None None]) false)); [left; reflexivity|reflexivity|reflexivity]|].
  split; [now left|]. split; [apply good_verifies; auto|]. split; [apply plain_acceptable|].
  intro x. vm_compute. discriminate.
Qed.
Lemma locked_set : let ask b := answer (plain_config bearer None) (any_header (Some "1")) all_usable all_fit good_signs (any_claims None None)
    [Keys [mksource (Some [good (Some "1") None]) b]] now request in
  (exists x, ask false = Ok (Some x)) /\ ask true = Err FailedToLocateProvider.
Proof. split; [eexists; vm_compute; reflexivity|vm_compute; reflexivity]. Qed.
Lemma several_audiences : let ask aud := answer (plain_config bearer (Some ["us"])) (any_header (Some "1")) all_usable all_fit good_signs (any_claims (Some aud) None)
    [Keys [mksource (Some [good (Some "1") None]) false]] now request in
  (exists x, ask (Multiple ["us"]) = Ok (Some x)) /\ ask (Multiple ["us"; "them"]) = Err (AllFailed [FailedToDecode]).
Proof. split; [eexists; vm_compute; reflexivity|vm_compute; reflexivity]. Qed.
Lemma hidden_cookie : let ask h := answer (plain_config (bearer ++ [InCookie "jwt"]) None) (any_header (Some "1")) all_usable all_fit good_signs (any_claims None None)
    [Keys [mksource (Some [good (Some "1") None]) false]] now h in
  (exists x, ask [("cookie", "jwt=tok")] = Ok (Some x)) /\
  ask [("authorization", "Basic dXNlcg=="); ("cookie", "jwt=tok")] = Err (LookupFailed MismatchedPrefix) /\
  ask [("cookie", "a=b"); ("cookie", "jwt=tok")] = Err (LookupFailed LookupNotFound).
Proof. split; [eexists; vm_compute; reflexivity|split; vm_compute; reflexivity]. Qed.
Lemma not_yet : exists x, answer (plain_config bearer None) (any_header (Some "1")) all_usable all_fit good_signs (any_claims None (Some 1500%N))
    [Keys [mksource (Some [good (Some "1") None]) false]] now request = Ok (Some x) /\
    c_nbf (x_claims x) = Some 1500%N /\ (now / 1000 + 60 < 1500)%N.
Proof. eexists. split; [vm_compute; reflexivity|]. split; [reflexivity|reflexivity]. Qed.
