(** Merging of Cache-Control headers.
    Models bin/router/src/executor/headers/cache_control.rs. *)
From Coq Require Import String Ascii List Bool NArith.
From Verif Require Import StrUtil HeadersModel.
Import ListNotations.
Local Open Scope string_scope.

(** cache_control.rs:13-21 *)
Record cc := mkcc {
  no_store : bool; no_cache : bool; must_revalidate : bool;
  is_private : bool; is_public : bool; max_age : option N }.

Definition cc_default : cc := mkcc false false false false false None.

(** cache_control.rs:36-39: token and value of one trimmed part. *)
Definition token_value (part : string) : string * option string :=
  match split_once "=" part with
  | Some (t, v) => (lower (trim t), Some (trim v))
  | None => (lower part, None)
  end.

(** cache_control.rs:40-66: one part; [None] = discard the whole header. *)
Definition parse_part (p : cc) (tv : string * option string) : option cc :=
  let '(t, v) := tv in
  if String.eqb t "no-store" then
    Some (mkcc true (no_cache p) (must_revalidate p) (is_private p) (is_public p) (max_age p))
  else if String.eqb t "no-cache" then
    Some (mkcc (no_store p) true (must_revalidate p) (is_private p) (is_public p) (max_age p))
  else if String.eqb t "must-revalidate" then
    Some (mkcc (no_store p) (no_cache p) true (is_private p) (is_public p) (max_age p))
  else if String.eqb t "private" then
    Some (mkcc (no_store p) (no_cache p) (must_revalidate p) true (is_public p) (max_age p))
  else if String.eqb t "public" then
    Some (mkcc (no_store p) (no_cache p) (must_revalidate p) (is_private p) true (max_age p))
  else if String.eqb t "max-age" then
    match v with
    | Some v =>
        match parse_u32 v with
        | Some n => Some (mkcc (no_store p) (no_cache p) (must_revalidate p) (is_private p)
                            (is_public p) (Some n))
        | None => None
        end
    | None => None
    end
  else None.

Fixpoint parse_parts (parts : list string) (p : cc) : option cc :=
  match parts with
  | [] => Some p
  | part :: parts' =>
      match trim part with
      | EmptyString => parse_parts parts' p
      | tp => match parse_part p (token_value tp) with
              | Some p' => parse_parts parts' p'
              | None => None
              end
      end
  end.

(** cache_control.rs:23-72 *)
Definition parse (header : string) : option cc :=
  match trim header with
  | EmptyString => None
  | t => parse_parts (split_on "," t) cc_default
  end.

Definition poisoned (p : cc) : bool := no_store p || no_cache p || is_private p.

(** cache_control.rs:74-103 *)
Definition merge_into (acc : option cc) (inc : cc) : option cc :=
  match acc with
  | None => Some inc
  | Some ex =>
      if poisoned ex || poisoned inc then Some (mkcc true true false false false None)
      else Some (mkcc (no_store ex) (no_cache ex)
                   (must_revalidate ex || must_revalidate inc)
                   (is_private ex)
                   (is_public ex && is_public inc)
                   (match max_age ex, max_age inc with
                    | Some a, Some b => Some (N.min a b)
                    | Some a, None => Some a
                    | None, Some b => Some b
                    | None, None => None
                    end))
  end.

(** cache_control.rs:105-125 *)
Definition to_header_value (p : cc) : string :=
  if poisoned p then "no-store, no-cache"
  else join ", "
         ((if is_public p then ["public"] else []) ++
          (match max_age p with Some n => [("max-age=" ++ N_to_dec n)%string] | None => [] end) ++
          (if must_revalidate p then ["must-revalidate"] else []))%list.

(** [HeaderValue::to_str]: fails unless every byte is visible ASCII or a tab. *)
Definition visible_char (c : ascii) : bool :=
  let n := N_of_ascii c in ((32 <=? n) && (n <=? 126) || (n =? 9))%N.
Definition to_str (v : string) : option string := if all_chars visible_char v then Some v else None.

(** cache_control.rs:190-197 *)
Definition fold_values (vs : list string) : option cc :=
  fold_left (fun acc v =>
    match to_str v with
    | Some s => match parse s with Some p => merge_into acc p | None => acc end
    | None => acc
    end) vs None.

(** cache_control.rs:173-225.  [a] is the response header aggregator.  The [expect] on
    [HeaderValue::from_str] is shown unreachable in CacheControlProofs.v
    ([to_header_value_valid]). *)
Definition finalize (a : agg) (force_no_store : bool) (total_responses : nat) : agg :=
  match aget "cache-control" a with
  | None => a
  | Some (_, values) =>
      if force_no_store then
        aset "cache-control" (Last, ["no-store, no-cache, must-revalidate"]) a
      else
        match fold_values values with
        | Some m =>
            let m' := if Nat.ltb (List.length values) total_responses
                      then mkcc (no_store m) (no_cache m) (must_revalidate m) (is_private m) false (max_age m)
                      else m in
            aset "cache-control" (Last, [to_header_value m']) a
        | None => aremove "cache-control" a
        end
  end.
