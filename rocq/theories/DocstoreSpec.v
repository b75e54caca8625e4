(* What the stores of persisted documents owe, without the functions of DocstoreModel. *)
From Coq Require Import String Ascii List Bool NArith.
From Verif Require Import DocstoreModel.
Import ListNotations.
Local Open Scope string_scope.
Local Open Scope list_scope.

Fixpoint free (c : ascii) (s : string) : Prop :=
  match s with "" => True | String d r => d <> c /\ free c r end.

Inductive app_id : string -> string -> string -> string -> Prop :=
| an_app_id : forall n v d, n <> "" -> v <> "" -> d <> "" -> free "~" n -> free "~" v -> free "~" d ->
    app_id n v d (n ++ "~" ++ v ++ "~" ++ d)%string.

(* the first endpoint that has the document *)
Inductive served : list answer -> string -> Prop :=
| sv_here : forall t r, served (Success t :: r) t
| sv_later : forall a r t, (forall u, a <> Success u) -> served r t -> served (a :: r) t.

Definition nobody (l : list answer) : Prop := forall t, ~ In (Success t) l.

(* the last endpoint answered with a status *)
Definition refused (l : list answer) : Prop := nobody l /\ exists r c, l = r ++ [Status c].

(* the entry of an id in a manifest *)
Definition last_entry (docs : list (string * string)) (id text : string) : Prop :=
  exists b a, docs = b ++ (id, text) :: a /\ forall t, ~ In (id, t) a.

(* everything has come to rest *)
Definition settled (w : watch) : Prop :=
  w_phase w = Waiting /\ w_permit w = false /\ w_marked w = false /\ w_unseen w = false.

(* the contents the file has had *)
Fixpoint written (es : list event) : list string :=
  match es with
  | [] => []
  | Write c :: r => c :: written r
  | _ :: r => written r
  end.

Definition tags_tell (os : list object) : Prop :=
  forall c1 c2 e, In (mkobject c1 (Some e)) os -> In (mkobject c2 (Some e)) os -> c1 = c2.

(* the objects that the polls saw *)
Fixpoint seen (os : list (option object)) : list object :=
  match os with [] => [] | Some o :: r => o :: seen r | None :: r => seen r end.

(* the steps of the watcher and of the task when nobody writes *)
Definition quiet : list event := [Mark; Notify; Swap; Read; Store; Wake; Swap; Read; Store].
