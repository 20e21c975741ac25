(** Model of the web service (/repo/webservice/src): the claims of a request (extractors.rs, auth.rs), the authorization
    (api/mod.rs, actions.rs), the end points (api/corpora.rs, api/search.rs, api/administration.rs, routes of main.rs) and
    the errors (errors.rs).
    Simplifications. The checks of the token library are one function from tokens to claims, which can be different for each
    request (the time and the key). The functions of the corpus storage are a record of functions [engine]; each of them gets
    the corpora named in the call, and none if there is no corpus of this name. Timeouts, poisoned locks and failing
    connections to the database are not modelled. Names are UTF-8 strings given by their bytes; [str::trim] removes ASCII white
    space only. The tables of the database are lists in the order of insertion, see [database]. Paths are those of a Unix
    system without symbolic links (see CompPath.v). An import changes the corpora when the job ends. *)
From Coq Require Import NArith String.
From stdpp Require Import base list gmap.
From Verif Require Import KeySer Percent CompPath CorpusDir KeySerSpec AnnoMem.

(** auth.rs l.1-19: without the expiration date, which the token library checks *)
Record claims := Claims { cl_sub : bytes; cl_groups : list bytes; cl_roles : list bytes }.
(** settings.rs l.65-80: [set_verify] stands for the key and the algorithm of token_verification *)
Record settings := Settings { set_anonymous_access : bool; set_data : bytes }.

(** http::HeaderValue::to_str *)
Definition visible (b : N) : bool := bool_decide (b = 9%N) || ((32 <=? b)%N && (b <=? 126)%N).
Definition to_str (h : bytes) : option bytes := if forallb visible h then Some h else None.
Definition is_space (b : N) : bool := bool_decide (b = 32%N) || ((9 <=? b)%N && (b <=? 13)%N).
Fixpoint trim_start (s : bytes) : bytes :=
  match s with b :: r => if is_space b then trim_start r else s | [] => [] end.
Definition trim (s : bytes) : bytes := reverse (trim_start (reverse (trim_start s))).
Definition starts_with (p s : bytes) : bool := bool_decide (take (length p) s = p).
Definition anonymous : bytes := str "anonymous".
Definition anonymous_claims : claims := Claims anonymous [] [].
(** extractors.rs l.22-54, verify_token l.7-19: None is the error InvalidJWTToken *)
Definition from_request (verify : bytes → option claims) (header : option bytes) : option claims :=
  match header with
  | Some h =>
      match to_str h with
      | Some s => if starts_with (str "bearer") s || starts_with (str "Bearer") s then verify (trim (drop 6 s))
                  else Some anonymous_claims
      | None => Some anonymous_claims
      end
  | None => Some anonymous_claims
  end.

(** migrations/2020-06-16-105832_corpus_corpus/up.sql: the tables groups and corpus_groups, with their primary keys.
    SQLite promises no order for the queries of this service, the model uses the order of insertion *)
Record database := Database { db_groups : list bytes; db_rows : list (bytes * bytes) }.
Definition db_empty : database := Database [] [].
(** actions.rs l.6-23 *)
Definition authorized_corpora (c : claims) (d : database) : list bytes :=
  snd <$> filter (λ r, r.1 ∈ anonymous :: cl_groups c) (db_rows d).
(** actions.rs l.25-45 *)
Definition list_groups (d : database) : list (bytes * list bytes) :=
  (λ g, (g, snd <$> filter (λ r, r.1 = g) (db_rows d))) <$> db_groups d.
(** actions.rs l.47-55. [fk]: whether SQLite enforces foreign keys (ON DELETE CASCADE): a compile-time default that the
    bundled SQLite library of Cargo.toml l.31 switches on *)
Definition delete_group (fk : bool) (g : bytes) (d : database) : database :=
  Database (filter (λ x, x ≠ g) (db_groups d))
    (if fk && bool_decide (g ∈ db_groups d) then filter (λ r, r.1 ≠ g) (db_rows d) else db_rows d).
(** INSERT into corpus_groups: None if the primary key exists *)
Definition insert_row (d : database) (r : bytes * bytes) : option database :=
  if decide (r ∈ db_rows d) then None else Some (Database (db_groups d) (db_rows d ++ [r])).
Fixpoint insert_rows (d : database) (rs : list (bytes * bytes)) : option database :=
  match rs with
  | [] => Some d
  | r :: rs => match insert_row d r with Some d => insert_rows d rs | None => None end
  end.
(** actions.rs l.57-90: None if the transaction fails, the database is unchanged then *)
Definition add_or_replace_group (fk : bool) (g : bytes) (corpora : list bytes) (d : database) : option database :=
  let d1 := Database (db_groups d) (filter (λ r, r.1 ≠ g) (db_rows d)) in
  let d2 := delete_group fk g d1 in
  insert_rows (Database (db_groups d2 ++ [g]) (db_rows d2)) ((λ c, (g, c)) <$> corpora).

(** The functions of the corpus storage on the content [C] of a corpus; a failure is a message *)
Inductive res (A : Type) := Fine (a : A) | Fault (e : bytes).
Arguments Fine {A}. Arguments Fault {A}.
Inductive order := Normal | Inverted | NotSorted | Randomized.
Global Instance order_eq_dec : EqDecision order.
Proof. solve_decision. Defined.
(** A query and its language *)
Definition query : Type := bytes * N.
(** The requests for one corpus (corpora.rs), with their parameters *)
Inductive single :=
| Subgraph (nodes : list bytes) (left right : N) (segmentation : option bytes)
| SubgraphForQuery (q : query) (ctype : option N)
| Components (ctype : option N) (name : option bytes)
| NodeAnnotations (list_values most_frequent : bool)
| EdgeAnnotations (ctype : N) (layer name : bytes) (list_values most_frequent : bool).
Record engine (C : Type) := Engine {
  en_count : option C → query → res (N * N);
  en_find : option C → query → N → option N → order → res (list bytes * N);
  en_frequency : option C → query → list bytes → res (list (list bytes));
  en_single : option C → single → res bytes;
  en_descriptions : query → res bytes;
  en_config : C → option bytes;       (* corpus-config.toml, None if it can not be read *)
  en_shuffle : list bytes → list bytes;
  en_import : bytes → bool → gmap bytes C → gmap bytes C * res (list bytes);
  en_export : option C → res bytes }.
Arguments Engine {C}. Arguments en_count {C}. Arguments en_find {C}. Arguments en_frequency {C}. Arguments en_single {C}.
Arguments en_descriptions {C}. Arguments en_config {C}. Arguments en_shuffle {C}. Arguments en_import {C}. Arguments en_export {C}.

(** Responses, with the status code and the body *)
Inductive body :=
| BNone
| BText (t : bytes)
| BNames (l : list bytes)
| BCount (matches docs : N)
| BTable (t : list (list bytes * N))
| BGroups (l : list (bytes * list bytes))
| BPaths (l : list (list bytes))
| BJob (id : N)
| BStatus (msgs : list bytes)
| BZip (name : bytes) (l : list (bytes * bytes)).
Inductive response :=
| Ok (b : body)                         (* 200 *)
| Accepted (b : body)                   (* 202 *)
| BadRequest (msg : bytes)              (* 400 *)
| Unauthorized                          (* 401 *)
| ForbiddenCorpora (l : list bytes)     (* 403 *)
| ForbiddenAdmin                        (* 403 *)
| NotFound                              (* 404 *)
| Gone (msgs : list bytes)              (* 410 *)
| Failed (msg : option bytes)           (* 500 *)
| BadGateway.                           (* 502 *)

(** The files below the data directory (and elsewhere): [path] is the result of [resolve] *)
Notation path := (bool * list bytes)%type.
Inductive fnode := Dir | File (content : bytes).
Global Instance fnode_eq_dec : EqDecision fnode.
Proof. solve_decision. Defined.
(** administration.rs l.18-42: the jobs, and the background threads that still run *)
Inductive status := Running | JobFailed | Finished (f : option (bytes * list (bytes * bytes))).
Record job := Job { job_messages : list bytes; job_status : status }.
Inductive task := TImport (zip : bytes) (override : bool) | TExport (corpora : list bytes).
Record service (C : Type) := Service {
  sv_db : database;
  sv_store : gmap bytes C;
  sv_files : gmap path fnode;
  sv_jobs : gmap N job;
  sv_tasks : gmap N task }.
Arguments Service {C}. Arguments sv_db {C}. Arguments sv_store {C}. Arguments sv_files {C}. Arguments sv_jobs {C}. Arguments sv_tasks {C}.

(** The requests (routes of main.rs l.193-261). [id] in the requests that start a job is the new random UUID; [uuid] is None if
    the text is no UUID *)
Inductive request :=
| ApiSpec
| NodeDescriptions (q : query)
| ListCorpora
| Count (corpora : list bytes) (q : query)
| Find (corpora : list bytes) (q : query) (offset : N) (limit : option N) (ord : order)
| Frequency (corpora : list bytes) (q : query) (definition : list bytes)
| Single (corpus : bytes) (s : single)
| Configuration (corpus : bytes)
| ListFiles (corpus : bytes) (node : option bytes)
| FileContent (corpus : bytes) (name : bytes)
| DeleteCorpus (corpus : bytes)
| ListGroups
| DeleteGroup (name : bytes)
| PutGroup (name : bytes) (group : bytes) (corpora : list bytes)
| Import (id : N) (zip : bytes) (override : bool)
| Export (id : N) (corpora : list bytes)
| Jobs (uuid : option N).

(** api/mod.rs l.8-14 *)
Definition is_admin (c : claims) : bool := bool_decide (str "admin" ∈ cl_roles c).
(** api/mod.rs l.18-48 *)
Definition check_read (set : settings) (d : database) (c : claims) (requested : list bytes) : response + list bytes :=
  if is_admin c || set_anonymous_access set then inr requested
  else
    let allowed := authorized_corpora c d in
    if forallb (λ n, bool_decide (n ∈ allowed)) requested then inr requested
    else inl (ForbiddenCorpora (filter (λ n, n ∉ allowed) requested)).

(** errors.rs l.56-99: errors of the corpus storage *)
Definition answer {A} (r : res A) (f : A → body) : response :=
  match r with Fine a => Ok (f a) | Fault e => Failed (Some e) end.

Section endpoints.
Context {C : Type} (en : engine C) (set : settings).

(** corpusstorage.rs create_corpus_info l.540-597 and errors.rs (LoadingCorpusConfig): the name is part of the message *)
Definition config_error (n : bytes) : bytes := str "loading corpus-config.toml for corpus " ++ n ++ str " failed".
Definition corpus_info (st : gmap bytes C) (n : bytes) : res bytes :=
  match st !! n with
  | Some c => match en_config en c with Some t => Fine t | None => Fault (config_error n) end
  | None => Fine (str "default")
  end.
(** corpusstorage.rs list l.471-481 *)
Fixpoint list_infos (st : gmap bytes C) (names : list bytes) : res (list bytes) :=
  match names with
  | [] => Fine []
  | n :: ns => match corpus_info st n with
               | Fine _ => match list_infos st ns with Fine l => Fine (n :: l) | Fault e => Fault e end
               | Fault e => Fault e
               end
  end.
Definition sort_names (l : list bytes) : list bytes := sort_list lex_compare l.
(** corpora.rs l.26-56 *)
Definition list_corpora (st : gmap bytes C) (d : database) (c : claims) : response :=
  match list_infos st (map_to_list st).*1 with
  | Fault e => Failed (Some e)
  | Fine all =>
      let allowed := if is_admin c || set_anonymous_access set then all
                     else filter (λ n, n ∈ authorized_corpora c d) all in
      Ok (BNames (sort_names allowed))
  end.

(** corpusstorage.rs count_extra l.1622-1689: the loop over the corpora *)
Fixpoint count_extra (st : gmap bytes C) (names : list bytes) (q : query) (m d : N) : res (N * N) :=
  match names with
  | [] => Fine (m, d)
  | n :: ns => match en_count en (st !! n) q with
               | Fine (a, b) => count_extra st ns q (m + a)%N (d + b)%N
               | Fault e => Fault e
               end
  end.
(** corpusstorage.rs find l.1994-2077 *)
Fixpoint find_loop (st : gmap bytes C) (names : list bytes) (q : query) (offset cur : N) (limit : option N) (ord : order)
    (found : list bytes) : res (list bytes) :=
  match names with
  | [] => Fine found
  | n :: ns =>
      match en_find en (st !! n) q cur limit ord with
      | Fault e => Fault e
      | Fine (one, skipped) =>
          let found' := found ++ match limit with Some l => take (N.to_nat l - length found) one | None => one end in
          if decide (limit = Some (N.of_nat (length found'))) then Fine found'
          else find_loop st ns q offset (if (skipped <? offset)%N then cur - skipped else 0)%N limit ord found'
      end
  end.
Definition find (st : gmap bytes C) (names : list bytes) (q : query) (offset : N) (limit : option N) (ord : order) :
    res (list bytes) :=
  match names with
  | [] => Fine []
  | [n] => match en_find en (st !! n) q offset limit ord with Fine (l, _) => Fine l | Fault e => Fault e end
  | _ =>
      let sorted := match ord with
                    | Randomized => en_shuffle en names
                    | Inverted => reverse (sort_names names)
                    | _ => sort_names names
                    end in
      find_loop st sorted q offset offset limit ord []
  end.
(** corpusstorage.rs frequency l.2274-2356 *)
Fixpoint count_tuples (f : gmap (list bytes) N) (l : list (list bytes)) : gmap (list bytes) N :=
  match l with [] => f | t :: l => count_tuples (<[t := (default 0 (f !! t) + 1)%N]> f) l end.
Fixpoint frequencies (st : gmap bytes C) (names : list bytes) (q : query) (def : list bytes) (f : gmap (list bytes) N) :
    res (gmap (list bytes) N) :=
  match names with
  | [] => Fine f
  | n :: ns => match en_frequency en (st !! n) q def with
               | Fine l => frequencies st ns q def (count_tuples f l)
               | Fault e => Fault e
               end
  end.
Definition table (f : gmap (list bytes) N) : list (list bytes * N) :=
  sort_list (λ a b, (b.2 ?= a.2)%N) (map_to_list f).

(** corpora.rs l.14-25 *)
Definition path_segment_encode_set (b : N) : bool := is_control b || bool_decide (b ∈ str " ""#<>`?{}%/").
(** corpora.rs l.241-246 and l.316-321: the directory of the linked files of a corpus *)
Definition files_dir (corpus : bytes) : bytes :=
  push (push (set_data set) (pct_encode path_segment_encode_set corpus)) (str "files").
(** str::contains("..") *)
Fixpoint has_dots (s : bytes) : bool :=
  match s with
  | a :: (b :: _) as r => (bool_decide (a = 46%N) && bool_decide (b = 46%N)) || has_dots r
  | _ => false
  end.
(** corpora.rs l.251-261 and l.303-313 *)
Definition check_path (p : bytes) : option response :=
  if has_dots p then Some (BadRequest (str "No .. allowed in file name"))
  else if starts_with [slash] p then Some (BadRequest (str "No absolute path allowed in file name"))
  else None.
Definition strip_prefix (base p : path) : option (list bytes) :=
  if decide (base.1 = p.1 ∧ take (length base.2) p.2 = base.2) then Some (drop (length base.2) p.2) else None.
Definition below (base p : path) : bool := bool_decide (is_Some (strip_prefix base p)).
Fixpoint strip_all (base : path) (l : list path) : option (list (list bytes)) :=
  match l with
  | [] => Some []
  | p :: l => match strip_prefix base p, strip_all base l with Some x, Some y => Some (x :: y) | _, _ => None end
  end.
Definition files_below (fs : gmap path fnode) (p : path) : list path :=
  (map_to_list (filter (λ e : path * fnode, below p e.1 = true ∧ e.2 ≠ Dir) fs)).*1.
(** corpora.rs l.230-284: None for the file of the error StripPrefixError *)
Definition list_files (fs : gmap path fnode) (corpus : bytes) (node : option bytes) : response :=
  let base := resolve (files_dir corpus) in
  match fs !! base with
  | None => NotFound
  | Some _ =>
      let start s := match fs !! resolve (push (files_dir corpus) s) with
                     | Some Dir => match strip_all base (files_below fs (resolve (push (files_dir corpus) s))) with
                                   | Some l => Ok (BPaths l)
                                   | None => Failed None
                                   end
                     | _ => Ok (BPaths [])
                     end in
      match node with
      | Some node => match check_path (trim node) with Some r => r | None => start (trim node) end
      | None => start corpus
      end
  end.
(** corpora.rs l.286-324 *)
Definition file_content (fs : gmap path fnode) (corpus name : bytes) : response :=
  let p := trim (pct_decode name) in
  match check_path p with
  | Some r => r
  | None => match fs !! resolve (push (files_dir corpus) p) with
            | Some (File t) => Ok (BText t)
            | Some Dir => Failed None
            | None => NotFound
            end
  end.

(** The part of a request that reads corpora, once the corpora are allowed *)
Definition read_corpora (s : service C) (q : request) : response :=
  match q with
  | Count names q => answer (count_extra (sv_store s) names q 0 0) (λ r, BCount r.1 r.2)
  | Find names q offset limit ord => answer (find (sv_store s) names q offset limit ord) BNames
  | Frequency names q def => answer (frequencies (sv_store s) names q def ∅) (λ f, BTable (table f))
  | Single n k => answer (en_single en (sv_store s !! n) k) BText
  | Configuration n => answer (corpus_info (sv_store s) n) BText
  | ListFiles n node => list_files (sv_files s) n node
  | FileContent n name => file_content (sv_files s) n name
  | _ => NotFound
  end.
Definition requested (q : request) : list bytes :=
  match q with
  | Count names _ | Find names _ _ _ _ | Frequency names _ _ => names
  | Single n _ | Configuration n | ListFiles n _ | FileContent n _ => [n]
  | _ => []
  end.

(** administration.rs l.260-301 *)
Definition job_answer (s : service C) (uuid : option N) : service C * response :=
  match uuid with
  | None => (s, BadRequest (str "Uuid"))
  | Some u =>
      match sv_jobs s !! u with
      | None => (s, NotFound)
      | Some j =>
          let s' := Service (sv_db s) (sv_store s) (sv_files s) (delete u (sv_jobs s)) (sv_tasks s) in
          match job_status j with
          | Running => (s, Accepted (BStatus (job_messages j)))
          | JobFailed => (s', Gone (job_messages j))
          | Finished (Some (name, zip)) => (s', Ok (BZip name zip))
          | Finished None => (s', Ok (BStatus (job_messages j)))
          end
      end
  end.
(** administration.rs l.119-134 and l.219-231 *)
Definition start_job (s : service C) (id : N) (t : task) : service C * response :=
  (Service (sv_db s) (sv_store s) (sv_files s) (<[id := Job [] Running]> (sv_jobs s)) (<[id := t]> (sv_tasks s)),
   Accepted (BJob id)).
Definition with_db (s : service C) (d : database) : service C := Service d (sv_store s) (sv_files s) (sv_jobs s) (sv_tasks s).

(** The requests of administrators (administration.rs l.44-92, 107-172, 204-258, corpora.rs l.325-337), after check_is_admin *)
Definition administrate (fk : bool) (s : service C) (q : request) : service C * response :=
  match q with
  | DeleteCorpus n =>
      match sv_store s !! n with
      | Some _ => (Service (sv_db s) (delete n (sv_store s)) (sv_files s) (sv_jobs s) (sv_tasks s), Ok BNone)
      | None => (s, NotFound)
      end
  | ListGroups => (s, Ok (BGroups (list_groups (sv_db s))))
  | DeleteGroup g => (with_db s (delete_group fk g (sv_db s)), Ok (BText (str "Group deleted")))
  | PutGroup name g corpora =>
      if decide (name = g) then
        match add_or_replace_group fk g corpora (sv_db s) with
        | Some d => (with_db s d, Ok (BText (str "Group added/replaced")))
        | None => (s, BadGateway)
        end
      else (s, BadRequest (str "Group name in path and object need to match."))
  | Import id zip override => start_job s id (TImport zip override)
  | Export id corpora => start_job s id (TExport corpora)
  | Jobs uuid => job_answer s uuid
  | _ => (s, NotFound)
  end.

(** One request. Only the first two ignore the claims *)
Definition respond (fk : bool) (s : service C) (verify : bytes → option claims) (header : option bytes) (q : request) :
    service C * response :=
  match q with
  | ApiSpec => (s, Ok (BText (str "openapi.yml")))
  | NodeDescriptions q => (s, answer (en_descriptions en q) BText)
  | _ =>
      match from_request verify header with
      | None => (s, Unauthorized)
      | Some c =>
          match q with
          | ListCorpora => (s, list_corpora (sv_store s) (sv_db s) c)
          | Count _ _ | Find _ _ _ _ _ | Frequency _ _ _ | Single _ _ | Configuration _ | ListFiles _ _ | FileContent _ _ =>
              match check_read set (sv_db s) c (requested q) with
              | inl r => (s, r)
              | inr _ => (s, read_corpora s q)
              end
          | _ => if is_admin c then administrate fk s q else (s, ForbiddenAdmin)
          end
      end
  end.

(** The background threads. A message is added to a running job (administration.rs l.142-150, 194-201) *)
Definition with_job (s : service C) (id : N) (f : job → job) : service C :=
  Service (sv_db s) (sv_store s) (sv_files s) (alter f id (sv_jobs s)) (sv_tasks s).
Definition push_message (m : bytes) (j : job) : job := Job (job_messages j ++ [m]) (job_status j).
Definition progress (s : service C) (id : N) (m : bytes) : service C :=
  match sv_tasks s !! id with Some _ => with_job s id (push_message m) | None => s end.
(** administration.rs l.174-202: the corpora of an export *)
Fixpoint export_all (st : gmap bytes C) (names : list bytes) : res (list (bytes * bytes)) :=
  match names with
  | [] => Fine []
  | n :: ns => match en_export en (st !! n) with
               | Fault e => Fault e
               | Fine x => match export_all st ns with Fine l => Fine ((n, x) :: l) | Fault e => Fault e end
               end
  end.
Fixpoint join_names (l : list bytes) : bytes :=
  match l with [] => [] | [n] => n | n :: l => n ++ str "_" ++ join_names l end.
(** administration.rs l.135-168 and l.233-256: the end of a background thread *)
Definition finish (s : service C) (id : N) : service C :=
  match sv_tasks s !! id with
  | None => s
  | Some t =>
      let tasks := delete id (sv_tasks s) in
      let set_job j st := Service (sv_db s) st (sv_files s) (alter j id (sv_jobs s)) tasks in
      match t with
      | TImport zip override =>
          match en_import en zip override (sv_store s) with
          | (st, Fine names) => set_job (λ j, Job (job_messages j ++ [str "imported corpora " ++ join_names names]) (Finished None)) st
          | (st, Fault e) => set_job (λ j, Job (job_messages j ++ [str "importing corpora failed: " ++ e]) JobFailed) st
          end
      | TExport names =>
          match export_all (sv_store s) names with
          | Fine l => set_job (λ j, Job (job_messages j) (Finished (Some (join_names names ++ str ".zip", l)))) (sv_store s)
          | Fault e => set_job (λ j, Job (job_messages j ++ [str "exporting corpora failed: " ++ e]) JobFailed) (sv_store s)
          end
      end
  end.

(** A run of the service: requests, steps of the background threads, and changes of the corpora and files by others *)
Inductive action :=
| Request (verify : bytes → option claims) (header : option bytes) (q : request)
| Progress (id : N) (msg : bytes)
| Finish (id : N)
| Outside (store : gmap bytes C) (files : gmap path fnode).
Definition act (fk : bool) (s : service C) (a : action) : service C * option response :=
  match a with
  | Request v h q => let '(s', r) := respond fk s v h q in (s', Some r)
  | Progress id m => (progress s id m, None)
  | Finish id => (finish s id, None)
  | Outside st fs => (Service (sv_db s) st fs (sv_jobs s) (sv_tasks s), None)
  end.
Fixpoint run (fk : bool) (s : service C) (l : list action) : service C :=
  match l with [] => s | a :: l => run fk (act fk s a).1 l end.
Definition sv_new (st : gmap bytes C) (fs : gmap path fnode) : service C := Service db_empty st fs ∅ ∅.
End endpoints.
Arguments action : clear implicits.
