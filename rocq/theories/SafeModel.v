(** Merging the selections of two fetch steps.
    Models bin/router/src/query_planner/ast/safe_merge.rs, [merge_selection_set] and
    [find_selection_set_by_path_mut] of ast/selection_set.rs, the migration functions of
    planner/fetch/selections.rs, [Hash for Value] of ast/value.rs and
    planner/fetch/optimize/apply_internal_aliases_patching.rs. *)
From Coq Require Import String Ascii List NArith ZArith Bool Arith DecimalString.
From Verif Require Import Ast QplanModel BestModel.
Import ListNotations.
Local Open Scope string_scope.
Local Open Scope list_scope.

(** ** The hash of arguments *)

(** What is written to the hasher: a string with its terminator, one byte, eight bytes. *)
Inductive write := WStr (s : string) | W8 (n : N) | W64 (n : N).

(** ast/value.rs:53-67, with the [Hash] of [Vec] and [BTreeMap] (a length, then the
    elements). *)
Fixpoint value_writes (v : gvalue) : list write :=
  match v with
  | GVar s => [WStr s]
  | GInt z => [W64 (Z.to_N (z mod 2 ^ 64))]
  | GFloat bits => [W64 bits]
  | GStr s => [WStr s]
  | GBool b => [W8 (if b then 1 else 0)]
  | GNull => [W8 0]
  | GEnum s => [WStr s]
  | GList l =>
      W64 (N.of_nat (length l)) ::
      (fix go (l : list gvalue) :=
         match l with [] => [] | x :: l' => value_writes x ++ go l' end) l
  | GObj o =>
      W64 (N.of_nat (length o)) ::
      (fix go (o : list (string * gvalue)) :=
         match o with [] => [] | (k, x) :: o' => WStr k :: value_writes x ++ go o' end) o
  end.

(** ast/arguments.rs:19-23 *)
Definition args_writes (args : list (string * gvalue)) : list write :=
  W64 (N.of_nat (length args)) ::
  flat_map (fun kv => WStr (fst kv) :: value_writes (snd kv)) args.

(** ** Paths *)

(** [Option<Condition>::from], ast/merge_path.rs:82-125 *)
Definition cond_of (include_if skip_if : option string) : option cond :=
  match skip_if, include_if with
  | Some s, Some i => Some (CSkipAndInclude s i)
  | Some s, None => Some (CSkip s)
  | None, Some i => Some (CInclude i)
  | None, None => None
  end.

(** [Segment], ast/merge_path.rs:127-134; the field segment carries the name and the alias
    of [FieldPathSegment] (9-12). *)
Inductive seg :=
| GField (name : string) (alias : option string) (hash : N) (c : option cond)
| GItems
| GType (names : list string) (c : option cond).

(** [selection_identifier], ast/selection_set.rs:214-219, and [response_key],
    ast/merge_path.rs:26-28 *)
Definition identifier (name : string) (alias : option string) : string :=
  match alias with Some a => a | None => name end.

(** [field_condition_equal] and [fragment_condition_equal], ast/selection_set.rs:631-667 *)
Definition condition_equal (c : option cond) (include_if skip_if : option string) : bool :=
  let is v o := option_eqb String.eqb (Some v) o in
  let none (o : option string) := match o with None => true | Some _ => false end in
  match c with
  | Some (CInclude v) => is v include_if && none skip_if
  | Some (CSkip v) => is v skip_if && none include_if
  | Some (CSkipAndInclude s i) => is s skip_if && is i include_if
  | None => none include_if && none skip_if
  end.

(** ** Merging without renaming *)

(** [FieldSelection::arguments], ast/selection_set.rs:279-290 *)
Definition some_args (args : option (list (string * gvalue))) : option (list (string * gvalue)) :=
  match args with Some [] => None | a => a end.

Section PlainScan.
  Variable plain : sel -> list sel -> list sel * bool.
  (** [merge_selection_set], ast/selection_set.rs:475-530: the target after the merges and
      the source items that found no place. *)
  Fixpoint plain_scan (src tgt : list sel) : list sel * list sel :=
    match src with
    | [] => (tgt, [])
    | x :: src' =>
        let '(tgt1, found) := plain x tgt in
        let '(tgt2, pending) := plain_scan src' tgt1 in
        (tgt2, if found then pending else x :: pending)
    end.
  Definition plain_with (as_first : bool) (tgt src : list sel) : list sel :=
    let '(tgt', pending) := plain_scan src tgt in
    if as_first then pending ++ tgt' else tgt' ++ pending.
End PlainScan.

(** The loop over the target for one source item (ast/selection_set.rs:483-521):
    [same] recognises the first place, [into] merges there. *)
Fixpoint plain_each (same : sel -> bool) (into : sel -> sel) (tgt : list sel) : list sel * bool :=
  match tgt with
  | [] => ([], false)
  | t :: tgt' =>
      if same t then (into t :: tgt', true)
      else let '(r, found) := plain_each same into tgt' in (t :: r, found)
  end.

Definition is_typename (n : string) : bool := String.eqb n "__typename".

Section Plain.
  Variable as_first : bool.
  Fixpoint plain (x : sel) (tgt : list sel) : list sel * bool :=
    match x with
    | SField n a args inc skip o sub =>
        plain_each
          (fun t => match t with
                    | SField n' a' args' inc' skip' _ _ =>
                        String.eqb n n' && option_eqb String.eqb a a'
                        && option_eqb args_eqb (some_args args) (some_args args')
                        && condition_equal (cond_of inc skip) inc' skip'
                    | _ => false
                    end)
          (fun t => match t with
                    | SField n' a' args' inc' skip' o' sub' =>
                        SField n' a' args' inc' skip'
                               (if is_typename n' then o' && o else o')
                               (plain_with plain as_first sub' sub)
                    | t => t
                    end) tgt
    | SFrag tc inc skip sub =>
        plain_each
          (fun t => match t with
                    | SFrag tc' inc' skip' _ =>
                        String.eqb tc tc' && condition_equal (cond_of inc skip) inc' skip'
                    | _ => false
                    end)
          (fun t => match t with
                    | SFrag tc' inc' skip' sub' =>
                        SFrag tc' inc' skip' (plain_with plain as_first sub' sub)
                    | t => t
                    end) tgt
    | SSpread _ => (tgt, false)
    end.
  Definition merge_plain (tgt src : list sel) : list sel := plain_with plain as_first tgt src.
End Plain.

(** ** Merging with renaming *)

(** [panic!], and the loop of [safe_next_alias_name] running out of attempts. *)
Inductive res (A : Type) := Ok (a : A) | Panic | Stuck.
Arguments Ok {A}. Arguments Panic {A}. Arguments Stuck {A}.
Definition bind {A B} (r : res A) (k : A -> res B) : res B :=
  match r with Ok a => k a | Panic => Panic | Stuck => Stuck end.

(** [AliasesRecords], safe_merge.rs:33 *)
Definition records := list (list seg * string).
(** The merger's counter, and the records made so far. *)
Definition state := (N * records)%type.

(** safe_merge.rs:16-31 *)
Inductive place := AtSource (i : nat) | AtTarget (j : nat).
Inductive decision := Merged | Conflict (p : place) | Copied.
Inductive action := DoCopy (x : sel) | DoRename (p : place).

(** safe_merge.rs:38 *)
Definition alias_name (c : N) : string :=
  ("_internal_qp_alias_" ++ NilEmpty.string_of_uint (N.to_uint c))%string.

(** safe_merge.rs:41-43 *)
Definition uses_name (al : string) (x : sel) : bool :=
  match x with
  | SField n a _ _ _ _ _ => String.eqb n al || option_eqb String.eqb a (Some al)
  | _ => false
  end.

(** [safe_next_alias_name], safe_merge.rs:36-49 *)
Fixpoint next_alias (fuel : nat) (c : N) (items : list sel) : res (string * N) :=
  match fuel with
  | O => Stuck
  | S fuel' =>
      if existsb (uses_name (alias_name c)) items then next_alias fuel' (N.succ c) items
      else Ok (alias_name c, N.succ c)
  end.
Definition fresh_alias (c : N) (items : list sel) : res (string * N) :=
  next_alias (S (2 * length items)) c items.

(** safe_merge.rs:120-129 *)
Definition side (flags : bool * bool) (i j : nat) : res place :=
  match flags with
  | (true, false) => Ok (AtTarget j)
  | (false, true) | (true, true) => Ok (AtSource i)
  | (false, false) => Panic
  end.

(** safe_merge.rs:171-189 *)
Definition todo (x : sel) (d : decision) : list action :=
  match d with
  | Merged => []
  | Conflict (AtTarget j) => [DoCopy x; DoRename (AtTarget j)]
  | Conflict p => [DoRename p]
  | Copied => [DoCopy x]
  end.

Fixpoint set_nth (j : nat) (x : sel) (l : list sel) : list sel :=
  match l, j with
  | [], _ => []
  | _ :: l', O => x :: l'
  | y :: l', S j' => y :: set_nth j' x l'
  end.

Section Merger.
  Variable H : list write -> N.
  Variable flags : bool * bool.
  Variable as_first : bool.

  (** ast/selection_set.rs:224-230 *)
  Definition arguments_hash (args : option (list (string * gvalue))) : N :=
    match args with Some a => H (args_writes a) | None => 0 end.

  (** [FieldPathSegment::named] with the hash and the condition, safe_merge.rs:109-113 *)
  Definition field_seg (name : string) args (inc skip : option string) : seg :=
    GField name None (arguments_hash args) (cond_of inc skip).

  (** The second half of [merge_selection_set_inner], safe_merge.rs:192-251 *)
  Fixpoint settle (src : list sel) (path : list seg) (acts : list action)
    (tgt : list sel) (st : state) : res (list sel * state) :=
    match acts with
    | [] => Ok (tgt, st)
    | DoCopy x :: acts' =>
        settle src path acts' (if as_first then x :: tgt else tgt ++ [x]) st
    | DoRename p :: acts' =>
        bind (fresh_alias (fst st) tgt) (fun '(al, c) =>
          match p with
          | AtSource i =>
              match nth_error src i with
              | Some (SField n _ args inc skip o sub) =>
                  settle src path acts' (tgt ++ [SField n (Some al) args inc skip o sub])
                         (c, snd st ++ [(path ++ [field_seg n args inc skip], al)])
              | _ => settle src path acts' tgt (c, snd st)
              end
          | AtTarget j =>
              match nth_error tgt j with
              | Some (SField n _ args inc skip o sub) =>
                  settle src path acts' (set_nth j (SField n (Some al) args inc skip o sub) tgt)
                         (c, snd st ++ [(path ++ [field_seg n args inc skip], al)])
              | _ => settle src path acts' tgt (c, snd st)
              end
          end)
    end.

  Section Scan.
    Variable absorb :
      sel -> nat -> list seg -> list sel -> state -> res (list sel * state * decision).
    (** The first half, safe_merge.rs:83-189 *)
    Fixpoint scan (path : list seg) (i : nat) (src tgt : list sel) (st : state)
      : res (list sel * state * list action) :=
      match src with
      | [] => Ok (tgt, st, [])
      | x :: src' =>
          bind (absorb x i path tgt st) (fun '(tgt1, st1, d) =>
          bind (scan path (S i) src' tgt1 st1) (fun '(tgt2, st2, acts) =>
          Ok (tgt2, st2, todo x d ++ acts)))
      end.
    (** [merge_selection_set_inner], safe_merge.rs:69-252; without source items nothing
        happens (78-80). *)
    Definition merge_with (path : list seg) (tgt src : list sel) (st : state)
      : res (list sel * state) :=
      bind (scan path 0 src tgt st) (fun '(tgt1, st1, acts) => settle src path acts tgt1 st1).
  End Scan.

  (** What one target item does to one source item. *)
  Inductive meeting := Passes | Clashes | Joins (r : res (sel * state)).

  (** The loop over the target for one source item, safe_merge.rs:87-169: on a conflict the
      loop goes on, on a merge it stops. *)
  Fixpoint each (meet : sel -> state -> meeting) (i j : nat) (tgt : list sel) (st : state)
    (d : decision) : res (list sel * state * decision) :=
    match tgt with
    | [] => Ok ([], st, d)
    | t :: tgt' =>
        let go d := bind (each meet i (S j) tgt' st d) (fun '(r, st', d') => Ok (t :: r, st', d')) in
        match meet t st with
        | Passes => go d
        | Clashes => bind (side flags i j) (fun p => go (Conflict p))
        | Joins r => bind r (fun '(t', st') => Ok (t' :: tgt', st', Merged))
        end
    end.

  Fixpoint absorb (x : sel) (i : nat) (path : list seg) (tgt : list sel) (st : state)
    : res (list sel * state * decision) :=
    match x with
    | SField n a args inc skip _ sub =>
        each (fun t st =>
          match t with
          | SField n' a' args' inc' skip' o' sub' =>
              if String.eqb (identifier n a) (identifier n' a')
                 && option_eqb String.eqb inc inc' && option_eqb String.eqb skip skip'
              then if N.eqb (arguments_hash args) (arguments_hash args')
                      && option_eqb String.eqb a a'
                   then Joins (bind (merge_with absorb (path ++ [field_seg n args inc skip])
                                                sub' sub st)
                                    (fun '(r, st') => Ok (SField n' a' args' inc' skip' o' r, st')))
                   else Clashes
              else Passes
          | _ => Passes
          end) i 0 tgt st Copied
    | SFrag tc inc skip sub =>
        each (fun t st =>
          match t with
          | SFrag tc' inc' skip' sub' =>
              if String.eqb tc tc' && option_eqb String.eqb inc inc'
                 && option_eqb String.eqb skip skip'
              then Joins (bind (merge_with absorb (path ++ [GType [tc] (cond_of inc skip)])
                                           sub' sub st)
                               (fun '(r, st') => Ok (SFrag tc' inc' skip' r, st')))
              else Passes
          | _ => Passes
          end) i 0 tgt st Copied
    | SSpread _ => Ok (tgt, st, Copied)
    end.

  (** [merge_selection_set], safe_merge.rs:51-67, on a merger with counter [c]. *)
  Definition merge_safe (c : N) (tgt src : list sel) : res (list sel * state) :=
    merge_with absorb [] tgt src (c, []).

  (** ** Merging at a path *)

  (** First item that [sub] accepts, with the way back. *)
  Fixpoint first_sub (sub : sel -> option (list sel * (list sel -> sel))) (l : list sel)
    : option (list sel * (list sel -> list sel)) :=
    match l with
    | [] => None
    | x :: l' =>
        match sub x with
        | Some (s, back) => Some (s, fun s' => back s' :: l')
        | None => match first_sub sub l' with
                  | Some (s, back) => Some (s, fun s' => x :: back s')
                  | None => None
                  end
        end
    end.

  (** [find_selection_set_by_path_mut], ast/selection_set.rs:541-629: the selection set
      found, and what becomes of the whole when it is replaced. *)
  Definition enter (g : seg) (x : sel) : option (list sel * (list sel -> sel)) :=
    match g, x with
    | GType names c, SFrag tc inc skip sub =>
        if existsb (String.eqb tc) names && condition_equal c inc skip
        then Some (sub, fun s => SFrag tc inc skip s) else None
    | GField n al h c, SField n' a' args inc skip o sub =>
        if String.eqb (identifier n' a') (identifier n al)
           && N.eqb (arguments_hash args) h && condition_equal c inc skip
        then Some (sub, fun s => SField n' a' args inc skip o s) else None
    | _, _ => None
    end.
  Fixpoint focus (path : list seg) (root : list sel) : option (list sel * (list sel -> list sel)) :=
    match path with
    | [] => Some (root, fun s => s)
    | GItems :: path' => focus path' root
    | g :: path' =>
        match first_sub (enter g) root with
        | None => None
        | Some (s, back) =>
            match focus path' s with
            | None => None
            | Some (s', back') => Some (s', fun r => back (back' r))
            end
        end
    end.

  (** [add_at_path_inner], planner/fetch/selections.rs:337-361, on the definition's
      selections; [None] is [MissingPathInSelection]. *)
  Definition add_at (path : list seg) (root src : list sel) : option (list sel) :=
    match focus path root with
    | None => None
    | Some (s, back) => Some (back (merge_plain as_first s src))
    end.

  (** One round of [safe_migrate_from_another], selections.rs:486-511: a new merger, not
      [as_first]. *)
  Definition safe_add_at (path : list seg) (root src : list sel) : option (res (list sel * records)) :=
    match focus path root with
    | None => None
    | Some (s, back) =>
        Some (bind (merge_with absorb [] s src (0%N, [])) (fun '(r, (_, recs)) => Ok (back r, recs)))
    end.

  (** ** Telling the steps that read the renamed fields *)

  (** A descendant fetch step: where it applies, and what it reads there, by type. *)
  Record reader := mkreader { r_path : list seg; r_input : list (string * list sel) }.

  Inductive patch := Patched (r : reader) | PatchError | PatchPanic.

  (** [item_to_patch], apply_internal_aliases_patching.rs:102-108 *)
  Fixpoint patch_first (name al : string) (h : N) (l : list sel) : list sel :=
    match l with
    | SField n a args inc skip o sub :: l' =>
        if String.eqb n name && N.eqb (arguments_hash args) h
        then SField al (Some n) args inc skip o sub :: l'
        else SField n a args inc skip o sub :: patch_first name al h l'
    | x :: l' => x :: patch_first name al h l'
    | [] => []
    end.

  (** [segment_idx_to_patch], apply_internal_aliases_patching.rs:125-156 *)
  Fixpoint patch_path (name al : string) (h : N) (c : option cond) (p : list seg) : list seg :=
    match p with
    | GField n a h' c' :: p' =>
        if String.eqb n name && N.eqb h' h && option_eqb cond_eqb c' c
        then GField al a h' c' :: p'
        else GField n a h' c' :: patch_path name al h c p'
    | g :: p' => g :: patch_path name al h c p'
    | [] => []
    end.

  (** apply_internal_aliases_patching.rs:60-158 for one record and one descendant;
      [slice_from] (merge_path.rs:173-177) panics past the end. *)
  Definition patch_one (record : list seg * string) (r : reader) : patch :=
    let '(apath, al) := record in
    if Nat.ltb (length (r_path r)) (length apath) then PatchPanic
    else
      let relative := skipn (length apath) (r_path r) in
      match last (map Some apath) None with
      | Some (GField name _ h c) =>
          match r_input r with
          | [(tn, sels)] =>
              let sels' := match focus relative sels with
                           | Some (s, back) => back (patch_first name al h s)
                           | None => sels
                           end in
              Patched (mkreader (patch_path name al h c (r_path r)) [(tn, sels')])
          | _ => PatchError
          end
      | _ => Patched r
      end.
End Merger.
