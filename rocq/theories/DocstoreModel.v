(* Where the texts of persisted documents come from: the Hive CDN, a manifest
   file that is watched, a manifest object that is polled.
   Modelled: bin/router/src/pipeline/persisted_documents/resolve/{hive,fs,storage,shared_file_manifest}.rs,
   lib/hive-console-sdk/src/persisted_documents.rs. *)
From Coq Require Import String Ascii List Bool NArith.
From Verif Require Import StrUtil.
Import ListNotations.
Local Open Scope string_scope.
Local Open Scope list_scope.

Definition tilde : ascii := "~"%char.

Inductive hive_error := InvalidFormat | IdentityMissing | IdentityPartial.

Inductive syntax := App (id : string) | Plain (id : string) | Invalid.

(* hive.rs:53-104; memchr and the slices after it are split_once *)
Definition id_syntax (value : string) : syntax :=
  match split_once tilde value with
  | None => Plain value
  | Some (name, rest) =>
      if String.eqb name "" then Invalid
      else match split_once tilde rest with
           | None => Invalid
           | Some (version, doc) =>
               if String.eqb version "" then Invalid
               else if String.eqb doc "" then Invalid
               else match split_once tilde doc with
                    | Some _ => Invalid
                    | None => App value
                    end
           end
  end.

(* hive.rs:107-131 *)
Definition app_document_id (name version : option string) (id : string) : string + hive_error :=
  match id_syntax id with
  | Invalid => inr InvalidFormat
  | App i => inl i
  | Plain d =>
      match name, version with
      | Some n, Some v => inl (n ++ "~" ++ v ++ "~" ++ d)%string
      | None, None => inr IdentityMissing
      | _, _ => inr IdentityPartial
      end
  end.

(* sdk persisted_documents.rs:118 str::replace *)
Fixpoint slashes (s : string) : string :=
  match s with
  | "" => ""
  | String c r => String (if Ascii.eqb c tilde then "/"%char else c) (slashes r)
  end.

(* sdk persisted_documents.rs:119 *)
Definition cdn_url (endpoint id : string) : string := (endpoint ++ "/apps/" ++ slashes id)%string.

(* what an endpoint answers, after the retries of the client *)
Inductive answer := Success (text : string) | Status (code : N) | Broken (why : string).

Inductive cdn_error := NotFound | Fetch (why : string) | Unknown.

(* sdk persisted_documents.rs:112-160 *)
Definition from_endpoint (a : answer) : string + cdn_error :=
  match a with
  | Success t => inl t
  | Status _ => inr NotFound
  | Broken w => inr (Fetch w)
  end.

(* sdk persisted_documents.rs:192-203 *)
Fixpoint from_endpoints (last : option cdn_error) (l : list answer) : string + cdn_error :=
  match l with
  | [] => inr (match last with Some e => e | None => Unknown end)
  | a :: r => match from_endpoint a with
              | inl t => inl t
              | inr e => from_endpoints (Some e) r
              end
  end.

Record sdk := mksdk { s_cache : list (string * string); s_missing : list (string * N); s_now : N }.

Definition sdk_start : sdk := mksdk [] [] 0.

Fixpoint get {A} (k : string) (l : list (string * A)) : option A :=
  match l with
  | [] => None
  | (k', v) :: r => if String.eqb k' k then Some v else get k r
  end.

Definition drop {A} (k : string) (l : list (string * A)) : list (string * A) :=
  filter (fun e => negb (String.eqb (fst e) k)) l.

Inductive sdk_op :=
| Lookup (id : string) (answers : list answer)
| Evict (id : string)          (* moka may drop an entry at any time *)
| Forget (id : string)
| Tick (d : N).

Section Sdk.
Variable ttl : option N.   (* negative_cache_ttl *)

(* a fresh entry of the negative cache *)
Definition missing (s : sdk) (id : string) : bool :=
  match ttl with
  | None => false
  | Some d => match get id (s_missing s) with
              | Some t => (s_now s <? t + d)%N
              | None => false
              end
  end.

(* sdk persisted_documents.rs:163-215 *)
Definition lookup (s : sdk) (id : string) (answers : list answer) : sdk * (string + cdn_error) :=
  if missing s id then (s, inr NotFound)
  else match get id (s_cache s) with
       | Some t => (s, inl t)
       | None =>
           match from_endpoints None answers with
           | inl t => (mksdk ((id, t) :: s_cache s) (s_missing s) (s_now s), inl t)
           | inr NotFound =>
               (mksdk (s_cache s)
                  (match ttl with Some _ => (id, s_now s) :: drop id (s_missing s) | None => s_missing s end)
                  (s_now s), inr NotFound)
           | inr e => (s, inr e)
           end
       end.

Definition sdk_step (s : sdk) (o : sdk_op) : sdk * option (string + cdn_error) :=
  match o with
  | Lookup id l => let '(s', r) := lookup s id l in (s', Some r)
  | Evict id => (mksdk (drop id (s_cache s)) (s_missing s) (s_now s), None)
  | Forget id => (mksdk (s_cache s) (drop id (s_missing s)) (s_now s), None)
  | Tick d => (mksdk (s_cache s) (s_missing s) (s_now s + d)%N, None)
  end.

Fixpoint sdk_run (s : sdk) (ops : list sdk_op) : sdk :=
  match ops with
  | [] => s
  | o :: r => sdk_run (fst (sdk_step s o)) r
  end.
End Sdk.

(* shared_file_manifest.rs:29-104 *)
Inductive manifest :=
| Apollo (format : string) (version : N) (operations : list (string * string))
| KeyValue (entries : list (string * string)).

(* shared_file_manifest.rs:39-87; [None] is one of the two errors *)
Definition documents (m : manifest) : option (list (string * string)) :=
  match m with
  | Apollo f v ops =>
      if negb (String.eqb f "apollo-persisted-query-manifest") then None
      else if negb (N.eqb v 1) then None
      else Some ops
  | KeyValue es => Some es
  end.

(* collect::<HashMap>: the last entry of an id is kept *)
Definition find_document (docs : list (string * string)) (id : string) : option string := get id (rev docs).

Section Files.
(* sonic_rs::from_slice to a manifest *)
Variable parse : string -> option manifest.

(* fs.rs:185-201 after the read; storage.rs:65-67 *)
Definition load (contents : string) : option (list (string * string)) :=
  match parse contents with Some m => documents m | None => None end.

(* the background task: fs.rs:213-229, and 167-182 cut at its awaits *)
Inductive phase :=
| Starting                     (* loaded, watcher not yet created *)
| Waiting                      (* reload_signal.notified() *)
| Debouncing                   (* sleep *)
| Reading                      (* dirty swapped *)
| Storing (contents : string). (* read *)

Record watch := mkwatch {
  w_file : string;          (* contents of the file *)
  w_unseen : bool;          (* a change the watcher has not reported *)
  w_marked : bool;          (* between dirty.store and notify_one, fs.rs:144-147 *)
  w_dirty : bool;
  w_permit : bool;          (* the stored permit of Notify *)
  w_phase : phase;
  w_docs : list (string * string) }.

Inductive event :=
| Write (contents : string)
| Watch
| Mark
| Notify
| Wake
| Swap
| Read
| ReadFails
| Store.

Definition watched (p : phase) : bool := match p with Starting => false | _ => true end.

Definition watch_step (w : watch) (e : event) : watch :=
  match e with
  | Write c => mkwatch c (watched (w_phase w) || w_unseen w) (w_marked w) (w_dirty w) (w_permit w) (w_phase w) (w_docs w)
  | Watch => match w_phase w with
             | Starting => mkwatch (w_file w) (w_unseen w) (w_marked w) (w_dirty w) (w_permit w) Waiting (w_docs w)
             | _ => w
             end
  | Mark => if w_unseen w then mkwatch (w_file w) false true true (w_permit w) (w_phase w) (w_docs w) else w
  | Notify => if w_marked w then mkwatch (w_file w) (w_unseen w) false (w_dirty w) true (w_phase w) (w_docs w) else w
  | Wake => match w_phase w with
            | Waiting => if w_permit w
                         then mkwatch (w_file w) (w_unseen w) (w_marked w) (w_dirty w) false Debouncing (w_docs w)
                         else w
            | _ => w
            end
  | Swap => match w_phase w with
            | Debouncing => mkwatch (w_file w) (w_unseen w) (w_marked w) false (w_permit w)
                              (if w_dirty w then Reading else Waiting) (w_docs w)
            | _ => w
            end
  | Read => match w_phase w with
            | Reading => mkwatch (w_file w) (w_unseen w) (w_marked w) (w_dirty w) (w_permit w) (Storing (w_file w)) (w_docs w)
            | _ => w
            end
  | ReadFails => match w_phase w with
                 | Reading => mkwatch (w_file w) (w_unseen w) (w_marked w) (w_dirty w) (w_permit w) Waiting (w_docs w)
                 | _ => w
                 end
  | Store => match w_phase w with
             | Storing c => mkwatch (w_file w) (w_unseen w) (w_marked w) (w_dirty w) (w_permit w) Waiting
                              (match load c with Some d => d | None => w_docs w end)
             | _ => w
             end
  end.

Definition watch_run (w : watch) (es : list event) : watch := fold_left watch_step es w.

(* fs.rs:85-99 *)
Definition watch_start (contents : string) : option watch :=
  match load contents with
  | Some d => Some (mkwatch contents false false false false Starting d)
  | None => None
  end.

(* the polled object: storage.rs:29-75 *)
Record polled := mkpolled { o_docs : list (string * string); o_etag : option string }.

Inductive object := mkobject (contents : string) (etag : option string).

(* storage/s3_runtime.rs:180-211 with the store's contract on if-none-match *)
Definition unchanged (last current : option string) : bool :=
  match last, current with
  | Some a, Some b => String.eqb a b
  | _, _ => false
  end.

Definition poll (p : polled) (o : option object) : polled :=
  match o with
  | None => p                          (* the request failed *)
  | Some (mkobject c e) =>
      if unchanged (o_etag p) e then p
      else match load c with
           | Some d => mkpolled d e
           | None => p
           end
  end.

Definition poll_start (o : object) : option polled :=
  match o with mkobject c e => match load c with Some d => Some (mkpolled d e) | None => None end end.
End Files.
