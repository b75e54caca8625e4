(** Entity representations: their hash and their JSON text.
    Models bin/router/src/executor/response/value.rs:36-49,70-145 and
    bin/router/src/executor/projection/request.rs. *)
From Coq Require Import String Ascii List NArith ZArith Bool.
From Verif Require Import StrOrd StrUtil JsonModel JsonWriterModel Ast TraverseModel ProjModel.
Import ListNotations.
Local Open Scope string_scope.

(** selection_set.rs:219-224 *)
Definition ident (name : string) (alias : option string) : string :=
  match alias with Some a => a | None => name end.

(** ** Hashing, value.rs *)
(** Little-endian bytes of a fixed-width integer ([Hasher::write_u64] and friends). *)
Fixpoint le (w : nat) (n : N) : list N :=
  match w with
  | 0 => []
  | S w' => N.modulo n 256 :: le w' (N.div n 256)
  end.
(** [str::hash]: the bytes, then 0xff *)
Definition str_bytes (s : string) : list N :=
  (map N_of_ascii (list_ascii_of_string s) ++ [255])%list%N.
Definition z_bits (z : Z) : N := Z.to_N (z mod 18446744073709551616)%Z.

(** The bytes fed to the hasher by [impl Hash for Value], value.rs:36-49.  The literal [0] is an
    [i32]; slices are prefixed by their length. *)
Fixpoint hash_value (v : value) : list N :=
  match v with
  | VNull => le 4 0
  | VF64 b => le 8 b
  | VI64 z => le 8 (z_bits z)
  | VU64 n => le 8 n
  | VBool b => [if b then 1 else 0]%N
  | VStr s => str_bytes s
  | VRaw s => str_bytes s
  | VArr l => (le 8 (N.of_nat (length l)) ++ flat_map hash_value l)%list
  | VObj o => (le 8 (N.of_nat (length o))
               ++ flat_map (fun kv => str_bytes (fst kv) ++ hash_value (snd kv)) o)%list
  end.

(** [None] is the [unreachable!] of value.rs:141. *)
Definition cat_opt {A B} (f : A -> option (list B)) :=
  fix cat (l : list A) : option (list B) :=
    match l with
    | [] => Some []
    | x :: l' => match f x, cat l' with
                 | Some a, Some b => Some (a ++ b)%list
                 | _, _ => None
                 end
    end.

Section H.
  Variable pt : ptypes.

  (** [hash_object_with_requires] for one selection, value.rs:107-145, with
      [hash_with_requires] (value.rs:80-105) inlined for the field's value. *)
  Fixpoint hash_item (x : sel) (o : list (string * value)) {struct x} : option (list N) :=
    match x with
    | SField n _ _ _ _ _ sub =>
        match get n o with
        | None => Some []
        | Some v =>
            match (match sub with
                   | [] => Some (hash_value v)
                   | _ =>
                       (fix hv (v : value) : option (list N) :=
                          match v with
                          | VObj o' => cat_opt (fun y => hash_item y o') sub
                          | VArr l => cat_opt hv l
                          | _ => Some (hash_value v)
                          end) v
                   end) with
            | Some b => Some (str_bytes n ++ b)%list
            | None => None
            end
        end
    | SFrag c _ _ sub =>
        let t := match typename_of o with Some t => t | None => c end in
        if satisfies pt t c then cat_opt (fun y => hash_item y o) sub else Some []
    | SSpread _ => None
    end.

  (** [hash_with_requires], value.rs:80-105; [to_hash] (70-78) is the hash of these bytes. *)
  Definition hash_with (sels : list sel) : value -> option (list N) :=
    fix hv (v : value) : option (list N) :=
      match sels with
      | [] => Some (hash_value v)
      | _ =>
          match v with
          | VObj o => cat_opt (fun y => hash_item y o) sels
          | VArr l => cat_opt hv l
          | _ => Some (hash_value v)
          end
      end.
End H.

(** ** Projection, request.rs *)
Section P.
  Variable ryu : N -> string.
  Variable pt : ptypes.

  (** request.rs:15-25; the key is not escaped *)
  Definition write_key (first : bool) (key : option string) (buf : string) : string :=
    let buf := if first then buf else buf ++ "," in
    match key with
    | Some k => buf ++ String (chr 34) "" ++ k ++ String (chr 34) "" ++ ":"
    | None => buf
    end.
  (** request.rs:27-31 *)
  Definition write_typename (t buf : string) : string :=
    buf ++ String (chr 34) ("__typename" ++ String (chr 34) ":") ++ quoted t.

  (** request.rs:138-140 *)
  Definition only_typename (sels : list sel) : bool :=
    match sels with
    | [SField n a _ _ _ _ _] => String.eqb (ident n a) "__typename"
    | _ => false
    end.

  (** Scalars, request.rs:41-67 *)
  Definition scalar_text (v : value) : string :=
    match v with
    | VBool b => if b then "true" else "false"
    | VF64 b => f64_text ryu b
    | VI64 z => i64_text z
    | VU64 n => N_to_dec n
    | VStr s => quoted s
    | VRaw s => s
    | _ => ""
    end.

  (** The head of [project_requires_map_mut], request.rs:127-153, with the loop as [step]. *)
  Definition map_with (step : sel -> bool * string -> bool * string) (sels : list sel)
    (o : list (string * value)) (pkey : option string) (pfirst : bool) (st : bool * string) : bool * string :=
    match only_typename sels, typename_of o with
    | true, Some t => (false, write_typename t (write_key pfirst pkey (snd st) ++ "{"))
    | _, _ => fold_left (fun st x => step x st) sels st
    end.

  (** [Vec::truncate] *)
  Definition truncate_to (n : nat) (s : string) : string := take_str n s.

  (** [project_requires], request.rs:33-118, with the recursive object case as [obj]. *)
  Definition project_with (whole : bool)
    (obj : list (string * value) -> option string -> bool -> bool * string -> bool * string) :=
    fix pr (v : value) (buf : string) (first : bool) (key : option string) {struct v} : bool * string :=
      match v with
      | VNull => (false, buf)
      | VArr l =>
          let '(_, buf) :=
            (fix items (l : list value) (first : bool) (buf : string) : bool * string :=
               match l with
               | [] => (first, buf)
               | x :: l' =>
                   let '(done, buf) := pr x buf first None in
                   items l' (if done then false else first) buf
               end) l true (write_key first key buf ++ "[") in
          (true, buf ++ "]")
      | VObj o =>
          if whole then (true, serialize ryu v (write_key first key buf))
          else
            match o with
            | [] => (false, buf)
            | _ =>
                let '(none, buf) := obj o key first (true, buf) in
                if none then (false, buf) else (true, buf ++ "}")
            end
      | _ => (true, write_key first key buf ++ scalar_text v)
      end.

  Definition is_nil {A} (l : list A) : bool := match l with [] => true | _ => false end.

  (** One selection of [project_requires_map_mut], request.rs:155-254.  The state is
      ([*first], buffer). *)
  Fixpoint item (x : sel) (o : list (string * value)) (pkey : option string) (pfirst : bool)
    (st : bool * string) {struct x} : bool * string :=
    match x with
    | SField n a _ _ _ _ sub =>
        let key := ident n a in
        if String.eqb key "__typename" then st
        else
          match (match get n o with Some v => Some v | None => get key o end) with
          | None => st
          | Some v =>
              let '(first0, buf0) := st in
              let '(first, buf) :=
                if first0 then
                  let buf := write_key pfirst pkey buf0 ++ "{" in
                  match typename_of o with
                  | Some t => (false, write_typename t buf)
                  | None => (true, buf)
                  end
                else (first0, buf0) in
              if is_null v then (false, write_key first (Some key) buf ++ "null")
              else
                let '(done, buf) :=
                  project_with (is_nil sub)
                    (fun o' k f st => map_with (fun y st => item y o' k f st) sub o' k f st)
                    v buf first (Some key) in
                if done then (false, buf)
                else if first then (first, truncate_to (String.length buf0) buf)
                else (first, buf)
          end
    | SFrag c _ _ sub =>
        let t := match typename_of o with Some t => t | None => c end in
        if satisfies pt t c || satisfies pt c t
        then map_with (fun y st => item y o pkey pfirst st) sub o pkey pfirst st
        else st
    | SSpread _ => st
    end.

  Definition project_requires (sels : list sel) : value -> string -> bool -> option string -> bool * string :=
    project_with (is_nil sels)
      (fun o k f st => map_with (fun y st => item y o k f st) sels o k f st).
End P.
