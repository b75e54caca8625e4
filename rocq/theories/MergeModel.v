(** Merging of subgraph data into the response tree.
    Models bin/router/src/executor/response/merge.rs. *)
From Coq Require Import String List.
From Verif Require Import StrOrd JsonModel.
Import ListNotations.

(** merge.rs:5-34 [deep_merge]/[deep_merge_internal] and merge.rs:36-86
    [deep_merge_objects].  [&mut target] becomes the returned value.  The two early
    returns of [deep_merge_objects] (empty source, empty target) give what the general
    loop gives.  The loop over two peekable iterators is the nested fixpoint [mo]; the
    final [extend]s are its base cases.  [zip] stops at the shorter list: extra source
    elements are dropped and extra target elements kept. *)
Fixpoint deep_merge (t s : value) {struct t} : value :=
  match t, s with
  | _, VNull => t
  | VObj tl, VObj sl =>
      VObj ((fix mo (tl sl : list (string * value)) {struct tl} : list (string * value) :=
               match tl with
               | [] => sl
               | (tk, tv) :: tl' =>
                   (fix go (sl : list (string * value)) : list (string * value) :=
                      match sl with
                      | [] => tl
                      | (sk, sv) :: sl' =>
                          match String.compare tk sk with
                          | Lt => (tk, tv) :: mo tl' sl
                          | Gt => (sk, sv) :: go sl'
                          | Eq => (tk, deep_merge tv sv) :: mo tl' sl'
                          end
                      end) sl
               end) tl sl)
  | VArr ta, VArr sa =>
      VArr ((fix zm (ta sa : list value) {struct ta} : list value :=
               match ta, sa with
               | tv :: ta', sv :: sa' => deep_merge tv sv :: zm ta' sa'
               | _, _ => ta
               end) ta sa)
  | _, _ => s
  end.

(** The same two inner loops as stand-alone functions (equal by unfolding, see
    MergeProofs.v). *)
Fixpoint merge_objects (tl sl : list (string * value)) {struct tl} : list (string * value) :=
  match tl with
  | [] => sl
  | (tk, tv) :: tl' =>
      (fix go (sl : list (string * value)) : list (string * value) :=
         match sl with
         | [] => tl
         | (sk, sv) :: sl' =>
             match String.compare tk sk with
             | Lt => (tk, tv) :: merge_objects tl' sl
             | Gt => (sk, sv) :: go sl'
             | Eq => (tk, deep_merge tv sv) :: merge_objects tl' sl'
             end
         end) sl
  end.

Fixpoint merge_arrays (ta sa : list value) {struct ta} : list value :=
  match ta, sa with
  | tv :: ta', sv :: sa' => deep_merge tv sv :: merge_arrays ta' sa'
  | _, _ => ta
  end.

(** Responses are merged one after the other as they arrive
    (executor/execution/plan.rs:828-868, process_job_result). *)
Definition merge_all (t : value) (rs : list value) : value := fold_left deep_merge rs t.
