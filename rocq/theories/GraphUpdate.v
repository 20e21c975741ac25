(** Model of a list of graph updates (/repo/core/src/graph/update.rs).
    Simplifications: temporary files are always readable and writable; a table of the crate sstable is the list of its
    entries, which must be added in the order of their keys; the mutex is left out (an iterator borrows the list, so no
    event can be added while one is used). *)
From stdpp Require Import base list.
From Coq Require Import NArith.
From Verif Require Import KeySer KeySerSpec Bincode.

(** l.18-80 *)
Inductive event :=
| AddNode (name type : bytes)
| DeleteNode (name : bytes)
| AddNodeLabel (name ns anno value : bytes)
| DeleteNodeLabel (name ns anno : bytes)
| AddEdge (src tgt layer ctype cname : bytes)
| DeleteEdge (src tgt layer ctype cname : bytes)
| AddEdgeLabel (src tgt layer ctype cname ns anno value : bytes)
| DeleteEdgeLabel (src tgt layer ctype cname ns anno : bytes).

(** derived Serialize and Deserialize: the index of the variant and its fields *)
Definition enc_event (e : event) : bytes :=
  match e with
  | AddNode a b => varint 0 ++ enc_strings [a; b]
  | DeleteNode a => varint 1 ++ enc_strings [a]
  | AddNodeLabel a b c d => varint 2 ++ enc_strings [a; b; c; d]
  | DeleteNodeLabel a b c => varint 3 ++ enc_strings [a; b; c]
  | AddEdge a b c d e => varint 4 ++ enc_strings [a; b; c; d; e]
  | DeleteEdge a b c d e => varint 5 ++ enc_strings [a; b; c; d; e]
  | AddEdgeLabel a b c d e f g h => varint 6 ++ enc_strings [a; b; c; d; e; f; g; h]
  | DeleteEdgeLabel a b c d e f g => varint 7 ++ enc_strings [a; b; c; d; e; f; g]
  end.
Definition event_of (tag : N) (ss : list bytes) : option event :=
  match tag, ss with
  | 0%N, [a; b] => Some (AddNode a b)
  | 1%N, [a] => Some (DeleteNode a)
  | 2%N, [a; b; c; d] => Some (AddNodeLabel a b c d)
  | 3%N, [a; b; c] => Some (DeleteNodeLabel a b c)
  | 4%N, [a; b; c; d; e] => Some (AddEdge a b c d e)
  | 5%N, [a; b; c; d; e] => Some (DeleteEdge a b c d e)
  | 6%N, [a; b; c; d; e; f; g; h] => Some (AddEdgeLabel a b c d e f g h)
  | 7%N, [a; b; c; d; e; f; g] => Some (DeleteEdgeLabel a b c d e f g)
  | _, _ => None
  end.
Definition event_arity (tag : N) : nat :=
  match tag with 0%N => 2 | 1%N => 1 | 2%N => 4 | 3%N => 3 | 4%N => 5 | 5%N => 5 | 6%N => 8 | _ => 7 end.
(** The prefix of the bytes that is an event, and the rest *)
Definition read_event (l : bytes) : option (event * bytes) :=
  '(tag, r) ← unvarint l; '(ss, r') ← dec_strings (event_arity tag) r; e ← event_of tag ss; Some (e, r').
Definition dec_event (l : bytes) : option event :=
  '(e, r) ← read_event l; match r with [] => Some e | _ => None end.

(** Entries of a table. TableBuilder::add refuses (assertion) a key that is not larger than the last one. *)
Definition table := list (bytes * bytes).
Definition tb_add (t : table) (k v : bytes) : option table :=
  match last t with
  | Some (k0, _) => match lex_compare k0 k with Lt => Some (t ++ [(k, v)]) | _ => None end
  | None => Some (t ++ [(k, v)])
  end.

(** l.82-97 *)
Inductive changeset := InProgress (t : table) | Finished (t : table).
Record gupdate := GUpdate { u_sets : list changeset; u_counter : N }.
(** l.107-113 *)
Definition gu_new : gupdate := GUpdate [] 0.

(** l.172-197: the last changeset if it is in progress, otherwise a new one. Result: the changesets before it and its
    table *)
Definition current_inprogress (cs : list changeset) : list changeset * table :=
  match reverse cs with
  | InProgress t :: r => (reverse r, t)
  | _ => (cs, [])
  end.
(** l.115-127. [None]: error; overflow of the counter also counts as error *)
Definition gu_add (g : gupdate) (e : event) : option gupdate :=
  if (u_counter g =? 18446744073709551615)%N then None
  else
    let n := (u_counter g + 1)%N in
    let '(before, t) := current_inprogress (u_sets g) in
    t' ← tb_add t (uint_create_key 8 n) (enc_event e);
    Some (GUpdate (before ++ [InProgress t']) n).
(** l.147-170 *)
Definition finish_all (cs : list changeset) : list changeset :=
  (λ c, match c with InProgress t => Finished t | Finished t => Finished t end) <$> cs.

(** l.230-256: all results of the iterator; [None] if there is an error (the iterator then returns it forever) *)
Definition entry_event (e : bytes * bytes) : option (N * event) :=
  match uint_parse_key 8 e.1 with Ok id => ev ← dec_event e.2; Some (id, ev) | _ => None end.
Definition tables (cs : list changeset) : list table :=
  omap (λ c, match c with InProgress _ => None | Finished t => Some t end) cs.
(** l.129-133, l.205-228 *)
Definition gu_iter (g : gupdate) : gupdate * option (list (N * event)) :=
  let cs := finish_all (u_sets g) in
  (GUpdate cs (u_counter g), mapM entry_event (tables cs ≫= id)).
(** l.135-143 *)
Definition gu_is_empty (g : gupdate) : bool := (u_counter g =? 0)%N.
Definition gu_len (g : gupdate) : N := u_counter g.

(** l.267-285: serialisation as a map, with its length and entries *)
Definition gu_serialize (g : gupdate) : gupdate * option (N * list (N * event)) :=
  let '(g', r) := gu_iter g in (g', l ← r; Some (gu_len g', l)).
(** l.296-331 *)
Fixpoint de_entries (t : table) (counter : N) (l : list (N * event)) : option (table * N) :=
  match l with
  | [] => Some (t, counter)
  | (id, e) :: l' => t' ← tb_add t (uint_create_key 8 id) (enc_event e); de_entries t' id l'
  end.
Definition gu_deserialize (l : list (N * event)) : option gupdate :=
  '(t, n) ← de_entries [] 0 l; Some (GUpdate (finish_all [InProgress t]) n).

(** The bytes written by bincode for a map with 64 bit keys: length, then keys and values *)
Definition enc_updates (m : N * list (N * event)) : bytes :=
  varint m.1 ++ (m.2 ≫= λ x, varint x.1 ++ enc_event x.2).
Fixpoint dec_entries (n : nat) (l : bytes) : option (list (N * event) * bytes) :=
  match n with
  | 0 => Some ([], l)
  | S n' =>
      '(id, r) ← unvarint l; '(e, r1) ← read_event r; '(m, r2) ← dec_entries n' r1;
      Some ((id, e) :: m, r2)
  end.
Definition dec_updates (l : bytes) : option (list (N * event)) :=
  '(n, r) ← unvarint l; '(m, r') ← dec_entries (N.to_nat n) r; match r' with [] => Some m | _ => None end.

(** What a client does with an update list *)
Inductive gu_op :=
| UAdd (e : event)
| UIter
| UReload. (* serialize and continue with the deserialized list *)
(** The results: what an iteration yields, and length and emptiness after each operation. [None]: error *)
Definition gu_step (g : gupdate) (o : gu_op) : option (gupdate * list (N * event)) :=
  match o with
  | UAdd e => g' ← gu_add g e; Some (g', [])
  | UIter => let '(g', r) := gu_iter g in l ← r; Some (g', l)
  | UReload => '(n, l) ← (gu_serialize g).2; l' ← dec_updates (enc_updates (n, l)); g' ← gu_deserialize l'; Some (g', [])
  end.
Fixpoint gu_run (g : gupdate) (ops : list gu_op) : option (gupdate * list (list (N * event) * N * bool)) :=
  match ops with
  | [] => Some (g, [])
  | o :: ops' =>
      '(g1, r) ← gu_step g o; '(g2, rs) ← gu_run g1 ops';
      Some (g2, (r, gu_len g1, gu_is_empty g1) :: rs)
  end.
