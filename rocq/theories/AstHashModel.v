(** The operation hash used as plan-cache key.
    Models bin/router/src/query_planner/ast/hash.rs ([ast_hash], the order-dependent
    variant) and the key computation of bin/router/src/pipeline/query_plan.rs. *)
From Coq Require Import String List NArith ZArith Bool.
From Verif Require Import Ast.
Import ListNotations.
Local Open Scope string_scope.

(** What is fed to the hasher.  [Hash for str] writes the bytes and a terminator: one
    token [TStr].  Booleans, [Option] discriminants, [u64] and [i64] (as [u64], the
    [Hasher] default) are machine words; FxHasher treats all widths alike, so they are
    one token kind [TWord]. *)
Inductive token := TStr (s : string) | TWord (n : N).

Definition word_of_bool (b : bool) : token := TWord (if b then 1 else 0).

(** hash.rs:309-342.  A NaN float panics in the code; GraphQL has no NaN literal. *)
Fixpoint value_tokens (v : gvalue) : list token :=
  match v with
  | GList l => (fix go (l : list gvalue) :=
                  match l with [] => [] | x :: l' => value_tokens x ++ go l' end)%list l
  | GObj o => (fix go (o : list (string * gvalue)) :=
                 match o with [] => [] | (k, x) :: o' => TStr k :: value_tokens x ++ go o' end)%list o
  | GNull => [TStr "null"]
  | GInt z => [TWord (Z.to_N (z mod 2 ^ 64))]
  | GFloat bits => [TWord bits]
  | GEnum s => [TStr s]
  | GBool b => [word_of_bool b]
  | GStr s => [TStr s]
  | GVar s => [TStr s]
  end.

(** hash.rs:289-303 *)
Fixpoint type_tokens (t : tnode) : list token :=
  match t with
  | TNamed n => [TStr n]
  | TList t => TStr "list" :: type_tokens t
  | TNonNull t => TStr "non_null" :: type_tokens t
  end.

Section WithHash.
  (** The hash function: any function of the sequence of writes. *)
  Variable H : list token -> N.

  (** hash.rs:239-257: XOR of the per-argument hashes. *)
  Definition args_hash (args : list (string * gvalue)) : N :=
    fold_left (fun acc kv => N.lxor acc (H (TStr (fst kv) :: value_tokens (snd kv)))) args 0%N.

  (** hash.rs:89-99 [Option<T>] *)
  Definition opt_tokens {A} (f : A -> list token) (o : option A) : list token :=
    match o with
    | None => [TWord 0]
    | Some a => TWord 1 :: TWord 1 :: f a
    end.

  (** hash.rs:280-287 *)
  Definition vardef_tokens (v : vardef) : list token :=
    (TStr (vd_name v) :: type_tokens (vd_type v) ++ opt_tokens value_tokens (vd_default v))%list.

  (** hash.rs:259-278 *)
  Definition vars_hash (vs : list vardef) : N :=
    fold_left (fun acc v => N.lxor acc (H (vardef_tokens v))) vs 0%N.

  Definition cond_tokens (include_if skip_if : option string) : list token :=
    (match include_if with Some v => [TStr "@include"; TStr v] | None => [] end ++
     match skip_if with Some v => [TStr "@skip"; TStr v] | None => [] end)%list.

  (** [Option<String>] (std [Hash]): discriminant, then the string. *)
  Definition alias_tokens (a : option string) : list token :=
    match a with None => [TWord 0] | Some s => [TWord 1; TStr s] end.

  (** hash.rs:101-238 with ORDER_INDEPENDENT = false *)
  Fixpoint sel_tokens (x : sel) : list token :=
    match x with
    | SField n a args i s o sub =>
        (TStr n :: alias_tokens a ++
         (fix go (l : list sel) := match l with [] => [] | y :: l' => sel_tokens y ++ go l' end) sub ++
         (match args with Some l => [TWord (args_hash l)] | None => [] end) ++
         cond_tokens i s ++ [word_of_bool o])%list
    | SFrag t i s sub =>
        (TStr t ::
         (fix go (l : list sel) := match l with [] => [] | y :: l' => sel_tokens y ++ go l' end) sub ++
         cond_tokens i s)%list
    | SSpread n => [TStr n]
    end.
  Definition sels_tokens (l : list sel) : list token := flat_map sel_tokens l.

  (** hash.rs:67-87 *)
  Definition kind_tokens (k : option opkind) : list token :=
    [TWord 1; TWord 1;
     TStr (match k with
           | None | Some KQuery => "kind:query"
           | Some KMutation => "kind:mutation"
           | Some KSubscription => "kind:subscription"
           end)].
  Definition op_tokens (o : operation) : list token :=
    (kind_tokens (op_kind o) ++ sels_tokens (op_sels o) ++
     opt_tokens (fun vs => [TWord (vars_hash vs)]) (op_vars o))%list.

  (** hash.rs:60-64, operation.rs:38 *)
  Definition ast_hash (o : operation) : N := H (op_tokens o).

  (** pipeline/query_plan.rs calculate_cache_key: a second hash [K] over the operation
      hash and the override context (any type [C]). *)
  Definition plan_cache_key {C} (K : N -> C -> N) (o : operation) (ctx : C) : N :=
    K (ast_hash o) ctx.
End WithHash.
