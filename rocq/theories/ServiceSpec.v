(** Specification of the web service: who may read which corpus, what a job looks like from outside, and which files belong to
    a corpus. *)
From Coq Require Import NArith String.
From stdpp Require Import base list gmap.
From Verif Require Import KeySer PercentProofs CompPath Service.

(** The requests only administrators may make *)
Definition admin_only (q : request) : bool :=
  match q with
  | DeleteCorpus _ | ListGroups | DeleteGroup _ | PutGroup _ _ _ | Import _ _ _ | Export _ _ | Jobs _ => true
  | _ => false
  end.
(** The requests that need no user *)
Definition public (q : request) : bool := match q with ApiSpec | NodeDescriptions _ => true | _ => false end.
(** The corpora named in a request for reading *)
Definition named_corpora (q : request) : list bytes :=
  match q with
  | Count names _ | Find names _ _ _ _ | Frequency names _ _ => names
  | Single n _ | Configuration n | ListFiles n _ | FileContent n _ => [n]
  | _ => []
  end.
Definition administrator (c : claims) : Prop := str "admin" ∈ cl_roles c.
Global Instance administrator_dec c : Decision (administrator c).
Proof. unfold administrator. apply _. Defined.

(** The corpora of each group: a group has the corpora of the last request of an administrator that has set it, unless an
    administrator has deleted it afterwards. A request that names a corpus twice, or whose names for the group differ, has no
    effect. *)
Notation groups := (gmap bytes (gset bytes)).
Definition grant {C : Type} (G : groups) (a : action C) : groups :=
  match a with
  | Request v h (PutGroup name g corpora) =>
      match from_request v h with
      | Some c => if decide (administrator c ∧ name = g ∧ NoDup corpora) then <[g := list_to_set corpora]> G else G
      | None => G
      end
  | Request v h (DeleteGroup g) =>
      match from_request v h with
      | Some c => if decide (administrator c) then delete g G else G
      | None => G
      end
  | _ => G
  end.
Definition grants {C : Type} (l : list (action C)) : groups := fold_left grant l ∅.
(** A user may read the corpora of their groups and those of the group "anonymous" *)
Definition may_read (G : groups) (c : claims) (n : bytes) : Prop :=
  ∃ g S, (g = str "anonymous" ∨ g ∈ cl_groups c) ∧ G !! g = Some S ∧ n ∈ S.

(** The directory of the linked files of a corpus: below the data directory, in a directory for the corpus *)
Definition files_of (set : settings) (n : bytes) : path := resolve (files_dir set n).
(** Two services have the same content for the corpus [n] *)
Definition same_corpus {C : Type} (set : settings) (n : bytes) (s1 s2 : service C) : Prop :=
  sv_store s1 !! n = sv_store s2 !! n ∧
  (∀ rel, sv_files s1 !! ((files_of set n).1, (files_of set n).2 ++ rel) = sv_files s2 !! ((files_of set n).1, (files_of set n).2 ++ rel)).
(** Names that are usable as a path below a directory *)
Definition plain_name (n : bytes) : Prop :=
  Forall is_byte n ∧ n ≠ [] ∧ n ≠ str "." ∧ has_dots n = false ∧ starts_with [slash] n = false.
(** All configuration files can be read *)
Definition readable {C : Type} (en : engine C) (s : service C) : Prop := map_Forall (λ _ c, is_Some (en_config en c)) (sv_store s).

(** A relative path of file names, as text *)
Fixpoint join_path (l : list bytes) : bytes :=
  match l with [] => [] | [n] => n | n :: l => n ++ slash :: join_path l end.

(** A job as seen by an administrator: no job (never started, or its result was fetched), running with the messages of the
    background thread, or finished with an answer. *)
Inductive jview := VNone | VRunning (t : task) (msgs : list bytes) | VDone (r : response).
Definition expected (v : jview) : response :=
  match v with VNone => NotFound | VRunning _ m => Accepted (BStatus m) | VDone r => r end.
Section jobs.
Context {C : Type} (en : engine C).
(** The answer of a finished job, for the corpora [st] at its end: an export contains the exported corpora in the order of the
    request *)
Fixpoint zip_of (st : gmap bytes C) (names : list bytes) : list (bytes * bytes) + bytes :=
  match names with
  | [] => inl []
  | n :: ns => match en_export en (st !! n), zip_of st ns with
               | Fault e, _ => inr e
               | Fine x, inl l => inl ((n, x) :: l)
               | Fine _, inr e => inr e
               end
  end.
Definition result (t : task) (st : gmap bytes C) (msgs : list bytes) : response :=
  match t with
  | TImport zip override =>
      match (en_import en zip override st).2 with
      | Fine names => Ok (BStatus (msgs ++ [str "imported corpora " ++ join_names names]))
      | Fault e => Gone (msgs ++ [str "importing corpora failed: " ++ e])
      end
  | TExport names =>
      match zip_of st names with
      | inl l => Ok (BZip (join_names names ++ str ".zip") l)
      | inr e => Gone (msgs ++ [str "exporting corpora failed: " ++ e])
      end
  end.
Definition by_admin (v : bytes → option claims) (h : option bytes) : bool :=
  match from_request v h with Some c => bool_decide (administrator c) | None => false end.
(** The view of the job [id] after one action, which happens when the corpora are [st] *)
Definition jnext (id : N) (st : gmap bytes C) (a : action C) (w : jview) : jview :=
  match a with
  | Request v h (Import i zip override) => if by_admin v h && bool_decide (i = id) then VRunning (TImport zip override) [] else w
  | Request v h (Export i names) => if by_admin v h && bool_decide (i = id) then VRunning (TExport names) [] else w
  | Request v h (Jobs (Some i)) =>
      if by_admin v h && bool_decide (i = id) then match w with VDone _ => VNone | _ => w end else w
  | Progress i m =>
      if bool_decide (i = id) then match w with VRunning t ms => VRunning t (ms ++ [m]) | _ => w end else w
  | Finish i => if bool_decide (i = id) then match w with VRunning t ms => VDone (result t st ms) | _ => w end else w
  | _ => w
  end.
Fixpoint job_view (fk : bool) (set : settings) (id : N) (s : service C) (l : list (action C)) (w : jview) : jview :=
  match l with [] => w | a :: l => job_view fk set id (act en set fk s a).1 l (jnext id (sv_store s) a w) end.
(** The identifiers of the jobs that are started: random, and thus different *)
Definition started (l : list (action C)) : list N :=
  omap (λ a, match a with Request _ _ (Import i _ _) => Some i | Request _ _ (Export i _) => Some i | _ => None end) l.
End jobs.
