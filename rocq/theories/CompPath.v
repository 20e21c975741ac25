(** Model of the directories and of the textual form of components (/repo/core/src/graph/mod.rs l.81-173,
    /repo/core/src/types.rs l.203-267, /repo/graphannis/src/annis/db/aql/model.rs l.45-98).
    Simplifications: paths of a Unix system without symbolic links; a path is the sequence of its bytes. *)
From Coq Require Import NArith Ascii String.
From stdpp Require Import base list.
From Verif Require Import KeySer.

Definition str (s : string) : bytes := map (λ a, N.of_nat (nat_of_ascii a)) (list_ascii_of_string s).
Definition slash : N := 47.

(** model.rs l.60-77: the types with the names of the derived Display and FromStr *)
Inductive actype := Coverage | Dominance | Pointing | Ordering | LeftToken | RightToken | PartOf.
Global Instance actype_eq_dec : EqDecision actype.
Proof. solve_decision. Defined.
Definition actype_name (t : actype) : bytes :=
  str match t with
      | Coverage => "Coverage" | Dominance => "Dominance" | Pointing => "Pointing" | Ordering => "Ordering"
      | LeftToken => "LeftToken" | RightToken => "RightToken" | PartOf => "PartOf"
      end.
Definition all_types : list actype := [Coverage; Dominance; Pointing; Ordering; LeftToken; RightToken; PartOf].
Definition actype_parse (s : bytes) : option actype := snd <$> list_find (λ t, actype_name t = s) all_types.

(** types.rs l.203-212 *)
Record component := Component { c_type : actype; c_layer : bytes; c_name : bytes }.
Global Instance component_eq_dec : EqDecision component.
Proof. solve_decision. Defined.

(** types.rs l.235-240 *)
Definition comp_show (c : component) : bytes := actype_name (c_type c) ++ [slash] ++ c_layer c ++ [slash] ++ c_name c.
(** str::splitn: at most [n] parts *)
Fixpoint split_at (s : bytes) : option (bytes * bytes) :=
  match s with
  | [] => None
  | b :: r => if decide (b = slash) then Some ([], r) else '(x, y) ← split_at r; Some (b :: x, y)
  end.
Fixpoint splitn (n : nat) (s : bytes) : list bytes :=
  match n with
  | 0 => []
  | 1 => [s]
  | S n' => match split_at s with Some (x, y) => x :: splitn n' y | None => [s] end
  end.
(** types.rs l.242-267 *)
Definition comp_parse (s : bytes) : option component :=
  match splitn 3 s with
  | [t; l; n] => t' ← actype_parse t; Some (Component t' l n)
  | _ => None
  end.

(** PathBuf::push: an absolute path replaces the path *)
Definition push (p s : bytes) : bytes :=
  match s with
  | b :: _ => if decide (b = slash) then s
              else match last p with Some e => if decide (e = slash) then p ++ s else p ++ [slash] ++ s | None => s end
  | [] => match last p with Some e => if decide (e = slash) then p else p ++ [slash] | None => [] end
  end.
Definition default_layer : bytes := str "default_layer".
(** mod.rs l.81-92 *)
Definition relative_path (c : component) : bytes :=
  push (push (push (push [] (str "gs")) (actype_name (c_type c)))
    (if decide (c_layer c = []) then default_layer else c_layer c)) (c_name c).
(** The directory a path leads to: whether it is absolute, and its components *)
Fixpoint parts (s : bytes) (cur : bytes) : list bytes :=
  match s with
  | [] => [reverse cur]
  | b :: r => if decide (b = slash) then reverse cur :: parts r [] else parts r (b :: cur)
  end.
Definition walk_part (acc : list bytes) (p : bytes) : list bytes :=
  if decide (p = [] ∨ p = str ".") then acc
  else if decide (p = str "..") then match acc with [] => [p] | x :: r => if decide (x = str "..") then p :: acc else r end
  else p :: acc.
Definition resolve (s : bytes) : bool * list bytes :=
  (match s with b :: _ => bool_decide (b = slash) | [] => false end, reverse (fold_left walk_part (parts s []) [])).
Definition comp_dir (c : component) : bool * list bytes := resolve (relative_path c).

(** mod.rs l.116-173: the components found in a corpus directory; [cfgs] are the directories (relative to it) that contain a
    file impl.cfg. [entries cfgs p]: the names in the directory [p] *)
Definition entries (cfgs : list (list bytes)) (p : list bytes) : list bytes :=
  omap (λ d, if decide (take (length p) d = p) then head (drop (length p) d) else None) cfgs.
Definition has_cfg (cfgs : list (list bytes)) (c : component) : bool :=
  bool_decide ((comp_dir c).1 = false) && bool_decide ((comp_dir c).2 ∈ cfgs).
Definition find_components (cfgs : list (list bytes)) : list component :=
  all_types ≫= λ t, entries cfgs [str "gs"; actype_name t] ≫= λ layer,
    let l := if decide (layer = default_layer) then [] else layer in
    filter (λ c, has_cfg cfgs c = true)
      (Component t l [] :: (Component t l <$> entries cfgs [str "gs"; actype_name t; layer])).
