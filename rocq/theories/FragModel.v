(** Sharing repeated selection sets of a subgraph operation through fragments.
    Models query_planner/ast/minification/{mod,selection_id,stats,transform}.rs and the order-independent variant
    of [ast_hash] (query_planner/ast/hash.rs) that identifies selection sets. *)
From Coq Require Import String Ascii List NArith Bool.
From Verif Require Import StrOrd Ast AstHashModel PrintModel.
Import ListNotations.
Local Open Scope string_scope.

(** ast/minification/error.rs *)
Inductive minify_error :=
| TypeNotFound (t : string)
| FieldNotFound (f t : string)
| UnsupportedSpread
| UnsupportedField (t f : string)
| TypeForOperationNotFound.
Inductive outcome (A : Type) := Done (a : A) | Failed (e : minify_error).
Arguments Done {A} _.
Arguments Failed {A} _.
Definition then_ {A B} (r : outcome A) (k : A -> outcome B) : outcome B :=
  match r with Done a => k a | Failed e => Failed e end.

(** [supergraph.definitions] with the types of the fields of each, and the root types (state/supergraph_state.rs). *)
Record supergraph := mksupergraph {
  definitions : list (string * list (string * tnode));
  query_root : string;
  mutation_root : option string;
  subscription_root : option string }.
Fixpoint named {A} (k : string) (l : list (string * A)) : option A :=
  match l with [] => None | (k', a) :: l' => if String.eqb k k' then Some a else named k l' end.
(** [TypeNode::inner_type], supergraph_state.rs:1123-1129 *)
Fixpoint inner_name (t : tnode) : string := match t with TNamed n => n | TList t' | TNonNull t' => inner_name t' end.

(** * Identifiers of selection sets *)
Section Hash.
  (** [FxHasher] on a sequence of writes, and [DefaultHasher] on the two writes of [generate_selection_id] *)
  Variable H : list token -> N.
  Variable D : list token -> N.

  (** hash.rs:101-238 with ORDER_INDEPENDENT = true: the hashes of the items are combined with XOR. *)
  Fixpoint item_tokens (x : sel) : list token :=
    match x with
    | SField n a args i s o sub =>
        (TStr n :: alias_tokens a ++ [TWord (fold_left N.lxor (map (fun y => H (item_tokens y)) sub) 0%N)] ++
         (match args with Some l => [TWord (args_hash H l)] | None => [] end) ++ cond_tokens i s ++ [word_of_bool o])%list
    | SFrag t i s sub =>
        (TStr t :: TWord (fold_left N.lxor (map (fun y => H (item_tokens y)) sub) 0%N) :: cond_tokens i s)%list
    | SSpread n => [TStr n]
    end.
  Definition set_hash (l : list sel) : N := fold_left N.lxor (map (fun y => H (item_tokens y)) l) 0%N.
  (** selection_id.rs:10-15 *)
  Definition selection_id (ty : string) (l : list sel) : N := D [TStr ty; TWord (set_hash l)].
End Hash.

(** * Names of fragments, transform.rs:257-275 *)
Definition letter (d : N) : ascii := ascii_of_N (if (d <? 26)%N then 97 + d else 39 + d).
(** The loop divides until nothing is left: at most one step per binary digit. *)
Fixpoint letters (fuel : nat) (i : N) : string :=
  match fuel with
  | O => ""
  | S k => if (i =? 0)%N then "" else String (letter (i mod 52)) (letters k (i / 52))
  end.
Definition fragment_name (i : N) : string :=
  if (i <? 52)%N then String (letter i) "" else letters (N.to_nat (N.size i)) i.

(** ** Introspection, ast/selection_set.rs:300-302 *)
Definition is_introspection (n : string) : bool := String.prefix "__" n.

Section Minify.
  Variable sg : supergraph.
  (** the identifier of a selection set on a type *)
  Variable gid : string -> list sel -> N.

  (** * Counting, stats.rs *)
  Fixpoint count (id : N) (st : list (N * N)) : N :=
    match st with [] => 0%N | (id', n) :: st' => if (id =? id')%N then n else count id st' end.
  Fixpoint increase (id : N) (st : list (N * N)) : list (N * N) :=
    match st with
    | [] => [(id, 1%N)]
    | (id', n) :: st' => if (id =? id')%N then (id', (n + 1)%N) :: st' else (id', n) :: increase id st'
    end.
  (** stats.rs:31-33 *)
  Definition is_duplicated (st : list (N * N)) (id : N) : bool := (1 <? count id st)%N.
  (** stats.rs:27-29; the flag is set when a count passes one. *)
  Definition has_duplicates (st : list (N * N)) : bool := existsb (fun p => (1 <? snd p)%N) st.

  (** stats.rs:48-66: the part of [walk_and_collect_stats] before its loop; [rest] is the loop. *)
  Definition visit (rest : list (N * N) -> outcome (list (N * N))) (ty : string) (sub : list sel)
      (st : list (N * N)) : outcome (list (N * N)) :=
    match sub with
    | [] => Done st
    | _ =>
        let st' := increase (gid ty sub) st in
        if (1 <? count (gid ty sub) st')%N then Done st'
        else match named ty (definitions sg) with Some _ => rest st' | None => Failed (TypeNotFound ty) end
    end.
  (** stats.rs:68-138, one item *)
  Fixpoint walk (ty : string) (x : sel) (st : list (N * N)) : outcome (list (N * N)) :=
    match x with
    | SField n _ _ _ _ _ sub =>
        if is_introspection n then Done st
        else if String.eqb n "_entities" then
          (fix each (l : list sel) (st : list (N * N)) :=
             match l with
             | [] => Done st
             | y :: l' =>
                 match y with
                 | SField m _ _ _ _ _ _ => if is_introspection m then each l' st else Failed (UnsupportedField ty m)
                 | SFrag _ _ _ _ => then_ (walk ty y st) (each l')
                 | SSpread _ => Failed UnsupportedSpread
                 end
             end) sub st
        else
          match named ty (definitions sg) with
          | Some fs =>
              match named n fs with
              | Some t =>
                  visit (fun st => (fix each (l : list sel) (st : list (N * N)) :=
                           match l with [] => Done st | y :: l' => then_ (walk (inner_name t) y st) (each l') end) sub st)
                        (inner_name t) sub st
              | None => Failed (FieldNotFound n ty)
              end
          | None => Failed (FieldNotFound n ty)
          end
    | SFrag t _ _ sub =>
        visit (fun st => (fix each (l : list sel) (st : list (N * N)) :=
                 match l with [] => Done st | y :: l' => then_ (walk t y st) (each l') end) sub st) t sub st
    | SSpread _ => Failed UnsupportedSpread
    end.
  Definition walk_all (ty : string) : list sel -> list (N * N) -> outcome (list (N * N)) :=
    fix each l st := match l with [] => Done st | y :: l' => then_ (walk ty y st) (each l') end.
  Definition walk_set (ty : string) (l : list sel) (st : list (N * N)) : outcome (list (N * N)) :=
    visit (walk_all ty l) ty l st.

  (** * Rewriting, transform.rs *)
  Record made := mkmade { table : list (N * fragment); next : N }.
  Fixpoint lookup (id : N) (t : list (N * fragment)) : option fragment :=
    match t with [] => None | (id', f) :: t' => if (id =? id')%N then Some f else lookup id t' end.
  Fixpoint put (id : N) (f : fragment) (t : list (N * fragment)) : list (N * fragment) :=
    match t with
    | [] => [(id, f)]
    | (id', f') :: t' => if (id =? id')%N then (id, f) :: t' else (id', f') :: put id f t'
    end.

  Section Counts.
    Variable st : list (N * N).
    (** transform.rs:211-254; [items] is [transform_selection_set_items]. *)
    Definition get_or_create (items : made -> outcome (list sel * made)) (id : N) (ty : string) (m : made)
        : outcome (string * made) :=
      match lookup id (table m) with
      | Some f => Done (fr_name f, m)
      | None =>
          let name := fragment_name (next m) in
          then_ (items (mkmade (put id (mkfragment name ty []) (table m)) (next m + 1)%N))
            (fun r => Done (name, mkmade (put id (mkfragment name ty (fst r)) (table (snd r))) (next (snd r))))
      end.
    (** transform.rs:56-90 *)
    Definition share (items : made -> outcome (list sel * made)) (ty : string) (l : list sel) (m : made)
        : outcome (list sel * made) :=
      if is_duplicated st (gid ty l)
      then then_ (get_or_create items (gid ty l) ty m) (fun r => Done ([SSpread (fst r)], snd r))
      else items m.
    (** transform.rs:92-209, one item *)
    Fixpoint rewrite (ty : string) (x : sel) (m : made) : outcome (sel * made) :=
      match x with
      | SField n a args i s o sub =>
          if is_introspection n then Done (x, m)
          else if String.eqb n "_entities" then
            then_ ((fix each (l : list sel) (m : made) :=
                      match l with
                      | [] => Done ([], m)
                      | y :: l' =>
                          match y with
                          | SField k _ _ _ _ _ _ =>
                              if is_introspection k then then_ (each l' m) (fun r => Done (y :: fst r, snd r))
                              else Failed (UnsupportedField ty k)
                          | _ => then_ (rewrite ty y m) (fun r => then_ (each l' (snd r)) (fun q => Done (fst r :: fst q, snd q)))
                          end
                      end) sub m)
                  (fun r => Done (SField n a args i s o (fst r), snd r))
          else
            match named ty (definitions sg) with
            | Some fs =>
                match named n fs with
                | Some t =>
                    then_ (share (fun m => (fix each (l : list sel) (m : made) :=
                             match l with
                             | [] => Done ([], m)
                             | y :: l' => then_ (rewrite (inner_name t) y m)
                                            (fun r => then_ (each l' (snd r)) (fun q => Done (fst r :: fst q, snd q)))
                             end) sub m) (inner_name t) sub m)
                          (fun r => Done (SField n a args i s o (fst r), snd r))
                | None => Failed (FieldNotFound n ty)
                end
            | None => Failed (FieldNotFound n ty)
            end
      | SFrag t i s sub =>
          then_ (share (fun m => (fix each (l : list sel) (m : made) :=
                   match l with
                   | [] => Done ([], m)
                   | y :: l' => then_ (rewrite t y m)
                                  (fun r => then_ (each l' (snd r)) (fun q => Done (fst r :: fst q, snd q)))
                   end) sub m) t sub m)
                (fun r => Done (SFrag t i s (fst r), snd r))
      | SSpread n => Done (SSpread n, m)
      end.
    Definition rewrite_all (ty : string) : list sel -> made -> outcome (list sel * made) :=
      fix each l m :=
        match l with
        | [] => Done ([], m)
        | y :: l' => then_ (rewrite ty y m) (fun r => then_ (each l' (snd r)) (fun q => Done (fst r :: fst q, snd q)))
        end.
    Definition rewrite_set (ty : string) (l : list sel) (m : made) : outcome (list sel * made) :=
      share (rewrite_all ty l) ty l m.
  End Counts.

  (** [fragments_vec.sort()]: by name, ast/fragment.rs:18-22 *)
  Fixpoint place (f : fragment) (l : list fragment) : list fragment :=
    match l with
    | [] => [f]
    | g :: l' => match String.compare (fr_name g) (fr_name f) with Gt => f :: l | _ => g :: place f l' end
    end.
  Definition by_name (l : list fragment) : list fragment := fold_right place [] l.

  (** transform.rs:18-54 *)
  Definition transform (st : list (N * N)) (root : string) (op : operation) : outcome document :=
    if has_duplicates st then
      then_ (rewrite_set st root (op_sels op) (mkmade [] 0%N))
        (fun r => Done (mkdoc (mkop (op_name op) (op_kind op) (fst r) (op_vars op)) (by_name (map snd (table (snd r))))))
    else Done (mkdoc op []).

  (** mod.rs: [get_root_type_name] and [minify_operation] *)
  Definition root_of (k : option opkind) : option string :=
    match k with
    | None | Some KQuery => Some (query_root sg)
    | Some KMutation => mutation_root sg
    | Some KSubscription => subscription_root sg
    end.
  Definition minify (op : operation) : outcome document :=
    match root_of (op_kind op) with
    | Some root => then_ (walk_set root (op_sels op) []) (fun st => transform st root op)
    | None => Failed TypeForOperationNotFound
    end.
End Minify.

(** [minify_operation] with the identifiers of the router *)
Definition minify_operation (sg : supergraph) (H D : list token -> N) (op : operation) : outcome document :=
  minify sg (selection_id H D) op.
