(** Operation limits: /repo/bin/router/src/pipeline/validation/max_depth_rule.rs,
    max_aliases_rule.rs, max_directives_rule.rs and shared.rs.  Counts are [usize] in the
    code; they never exceed twice the configured limit, so they are naturals here. *)
From Coq Require Import String List Bool Arith.
Import ListNotations.
Local Open Scope string_scope.

(** A selection of the parsed document, with the number of its directives. *)
Inductive qsel :=
| QField (name : string) (alias : option string) (dirs : nat) (sub : list qsel)
| QSpread (frag : string) (dirs : nat)
| QInline (dirs : nat) (sub : list qsel).

(** An operation or fragment definition: number of directives and selection set. *)
Record qdef := { q_dirs : nat; q_sels : list qsel }.

(** shared.rs:21-27; the two kinds of definitions differ in nothing the rules read. *)
Inductive node := NSel (s : qsel) | NDef (d : qdef).

(** shared.rs:38-49 *)
Definition selection_set (n : node) : list qsel :=
  match n with
  | NSel (QField _ _ _ sub) => sub
  | NSel (QInline _ sub) => sub
  | NSel (QSpread _ _) => []
  | NDef d => q_sels d
  end.

(** shared.rs:55-63 *)
Definition get_directives (n : node) : nat :=
  match n with
  | NSel (QField _ _ d _) => d
  | NSel (QInline d _) => d
  | NSel (QSpread _ d) => d
  | NDef d => q_dirs d
  end.

(** shared.rs:100-103 *)
Inductive visited := Counted (n : nat) | Visiting.

Definition memo := list (string * visited).
Definition vget (f : string) (m : memo) : option visited :=
  match find (fun kv => String.eqb f (fst kv)) m with Some kv => Some (snd kv) | None => None end.
Definition vput (f : string) (v : visited) (m : memo) : memo := (f, v) :: m.

Definition known := list (string * qdef).
Definition kfind (f : string) (k : known) : option qdef :=
  match find (fun kv => String.eqb f (fst kv)) k with Some kv => Some (snd kv) | None => None end.

(** A count, the limit error, or (never, see [LimitsProofs]) an exhausted bound on the number
    of fragments entered. *)
Inductive outcome := Ok (n : nat) | Exceeded | OutOfFuel.

Definition bind (r : outcome * memo) (k : nat -> memo -> outcome * memo) : outcome * memo :=
  match r with
  | (Ok n, m) => k n m
  | (e, m) => (e, m)
  end.

(** max_aliases_rule.rs:37-47, and the same in the other two rules. *)
Definition check_limit (limit c : nat) (m : memo) : outcome * memo :=
  if Nat.ltb limit c then (Exceeded, m) else (Ok c, m).

(** max_aliases_rule.rs:56-61 *)
Definition own_aliases (n : node) : nat :=
  match n with NSel (QField _ (Some _) _ _) => 1 | _ => 0 end.

Section Count.
Context (own : node -> nat) (limit : nat) (frags : known).

(** max_aliases_rule.rs:49-101 with [own := own_aliases], max_directives_rule.rs:49-102 with
    [own := get_directives].  (With nothing to add, the alias rule skips the check of 0.)
    [enter] counts a fragment definition. *)
Definition after_children (enter : qdef -> memo -> outcome * memo) (n : node) (c : nat) (m : memo)
  : outcome * memo :=
  match n with
  | NSel (QSpread f _) =>
      match vget f m with
      | Some (Counted k) => check_limit limit (c + k) m
      | Some Visiting => (Ok c, m)
      | None =>
          let m := vput f Visiting m in
          match kfind f frags with
          | Some d =>
              bind (enter d m) (fun k m =>
                let m := vput f (Counted k) m in check_limit limit (c + k) m)
          | None => (Ok c, m)
          end
      end
  | _ => (Ok c, m)
  end.

Fixpoint count_sel (enter : qdef -> memo -> outcome * memo) (s : qsel) (m : memo)
  : outcome * memo :=
  let children :=
    (fix children (l : list qsel) (c : nat) (m : memo) : outcome * memo :=
       match l with
       | [] => (Ok c, m)
       | x :: l' =>
           bind (count_sel enter x m) (fun k m =>
             bind (check_limit limit (c + k) m) (fun c m => children l' c m))
       end) in
  bind (check_limit limit (own (NSel s)) m) (fun c m =>
    bind (match s with
          | QField _ _ _ sub => children sub c m
          | QInline _ sub => children sub c m
          | QSpread _ _ => (Ok c, m)
          end)
      (fun c m => after_children enter (NSel s) c m)).

Fixpoint count_sels (enter : qdef -> memo -> outcome * memo) (l : list qsel) (c : nat) (m : memo)
  : outcome * memo :=
  match l with
  | [] => (Ok c, m)
  | x :: l' =>
      bind (count_sel enter x m) (fun k m =>
        bind (check_limit limit (c + k) m) (fun c m => count_sels enter l' c m))
  end.

Fixpoint count_def (fuel : nat) (d : qdef) (m : memo) : outcome * memo :=
  match fuel with
  | 0 => (OutOfFuel, m)
  | S fuel =>
      bind (check_limit limit (own (NDef d)) m) (fun c m => count_sels (count_def fuel) (q_sels d) c m)
  end.
End Count.

(** max_depth_rule.rs, config/limits.rs:58-70 *)
Record depth_cfg := { dc_n : nat; dc_ignore_introspection : bool; dc_flatten : bool }.

(** max_depth_rule.rs:55-63 *)
Definition ignored (c : depth_cfg) (s : qsel) : bool :=
  match s with
  | QField name _ _ _ =>
      dc_ignore_introspection c && (String.eqb name "__schema" || String.eqb name "__type")
  | _ => false
  end.

(** max_depth_rule.rs:75-83 *)
Definition increase_by (c : depth_cfg) (child : qsel) : nat :=
  match child with
  | QSpread _ _ | QInline _ _ => if dc_flatten c then 0 else 1
  | QField _ _ _ _ => 1
  end.

Section Depth.
Context (cfg : depth_cfg) (frags : known).
Let limit := dc_n cfg.

(** max_depth_rule.rs:97-135; [parent] is the depth the node was called with, [d] the depth
    found so far. *)
Definition depth_spread (enter : qdef -> memo -> outcome * memo) (s : qsel) (parent d : nat) (m : memo)
  : outcome * memo :=
  match s with
  | QSpread f _ =>
      let parent := if dc_flatten cfg then parent else parent + 1 in
      match vget f m with
      | Some (Counted k) => check_limit limit (parent + k) m
      | Some Visiting => (Ok d, m)
      | None =>
          let m := vput f Visiting m in
          match kfind f frags with
          | Some def =>
              bind (enter def m) (fun k m =>
                let m := vput f (Counted k) m in
                bind (check_limit limit (parent + k) m) (fun p m => (Ok (Nat.max d p), m)))
          | None => (Ok d, m)
          end
      end
  | _ => (Ok d, m)
  end.

(** max_depth_rule.rs:49-138 for a selection. *)
Fixpoint depth_sel (enter : qdef -> memo -> outcome * memo) (s : qsel) (parent : nat) (m : memo)
  : outcome * memo :=
  let children :=
    (fix children (l : list qsel) (d : nat) (m : memo) : outcome * memo :=
       match l with
       | [] => (Ok d, m)
       | x :: l' =>
           bind (depth_sel enter x (parent + increase_by cfg x) m) (fun k m =>
             children l' (Nat.max d k) m)
       end) in
  if ignored cfg s then (Ok 0, m)
  else
    bind (check_limit limit parent m) (fun d m =>
      bind (match s with
            | QField _ _ _ sub => children sub d m
            | QInline _ sub => children sub d m
            | QSpread _ _ => (Ok d, m)
            end)
        (fun d m => depth_spread enter s parent d m)).

Fixpoint depth_sels (enter : qdef -> memo -> outcome * memo) (parent : nat) (l : list qsel) (d : nat)
  (m : memo) : outcome * memo :=
  match l with
  | [] => (Ok d, m)
  | x :: l' =>
      bind (depth_sel enter x (parent + increase_by cfg x) m) (fun k m =>
        depth_sels enter parent l' (Nat.max d k) m)
  end.

(** The same for a definition, always entered with depth 0. *)
Fixpoint depth_def (fuel : nat) (d : qdef) (m : memo) : outcome * memo :=
  match fuel with
  | 0 => (OutOfFuel, m)
  | S fuel =>
      bind (check_limit limit 0 m) (fun c m => depth_sels (depth_def fuel) 0 (q_sels d) c m)
  end.
End Depth.

(** [enter_document] of the three rules (e.g. max_aliases_rule.rs:105-126): every operation is
    counted with the same memo, which survives errors.  The result lists the outcomes. *)
Section Document.
Context (count : qdef -> memo -> outcome * memo).
Fixpoint count_operations (ops : list qdef) (m : memo) : list outcome :=
  match ops with
  | [] => []
  | o :: ops' => let '(r, m) := count o m in r :: count_operations ops' m
  end.
End Document.

(** One more than there are fragments: see [LimitsProofs] for why this suffices. *)
Definition enough (frags : known) : nat := S (length frags).

Definition alias_rule (limit : nat) (frags : known) (ops : list qdef) : list outcome :=
  count_operations (count_def own_aliases limit frags (enough frags)) ops [].
Definition directive_rule (limit : nat) (frags : known) (ops : list qdef) : list outcome :=
  count_operations (count_def get_directives limit frags (enough frags)) ops [].
Definition depth_rule (cfg : depth_cfg) (frags : known) (ops : list qdef) : list outcome :=
  count_operations (depth_def cfg frags (enough frags)) ops [].
