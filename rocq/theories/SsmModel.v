(** Executable model of mdds::sorted_string_map,
    /repo/include/mdds/sorted_string_map.hpp and sorted_string_map_def.inl.

    A string_view is a list of bytes (as integers 0..255, compared unsigned as
    std::char_traits<char> does).  std::lower_bound is its usual halving loop. *)
From Coq Require Import List ZArith Lia Bool.
From Verif Require Import Base.
Import ListNotations.
Open Scope Z_scope.

(** std::string_view::operator<, used by compare; sorted_string_map_def.inl:17-26 *)
Fixpoint sv_ltb (a b : list Z) : bool :=
  match a, b with
  | _, [] => false
  | [], _ :: _ => true
  | x :: a', y :: b' => if x <? y then true else if y <? x then false else sv_ltb a' b'
  end.
(** std::string_view::operator==; sorted_string_map_def.inl:104 *)
Fixpoint sv_eqb (a b : list Z) : bool :=
  match a, b with
  | [], [] => true
  | x :: a', y :: b' => (x =? y) && sv_eqb a' b'
  | _, _ => false
  end.

Section SSM.
Context {V : Type}.
(** operator== of the value type, used by the key finders; sorted_string_map_def.inl:39, 56 *)
Variable veqb : V -> V -> bool.
(** map_entry; sorted_string_map.hpp:20-25 *)
Local Notation entry := (list Z * V)%type.

(** std::lower_bound over the entries, as called in find; sorted_string_map_def.inl:101-102.
    Fuel bounds the loop; running out is undefined. *)
Fixpoint lower_bound (fuel : nat) (l : list entry) (k : list Z) (first len : nat) : res nat :=
  match len with
  | O => Ok first
  | _ => match fuel with
         | O => Undef
         | S f =>
             let half := Nat.div2 len in
             let* e := deref (nth_error l (first + half)) in
             if sv_ltb (fst e) k then lower_bound f l k (S (first + half)) (len - half - 1)
             else lower_bound f l k first half
         end
  end.

(** find; sorted_string_map_def.inl:94-108 *)
Definition ssm_find (l : list entry) (null : V) (k : list Z) : res V :=
  if (length l =? 0)%nat then Ok null
  else
    let* p := lower_bound (length l) l k 0 (length l) in
    if (p =? length l)%nat then Ok null
    else let* e := deref (nth_error l p) in
         if sv_eqb (fst e) k then Ok (snd e) else Ok null.

(** linear_key_finder::operator(); sorted_string_map_def.inl:36-44 *)
Fixpoint linear_find (l : list entry) (v : V) : list Z :=
  match l with
  | [] => []
  | e :: t => if veqb (snd e) v then fst e else linear_find t v
  end.

(** m_keys.insert_or_assign; sorted_string_map_def.inl:51 *)
Fixpoint upsert (m : list (V * nat)) (v : V) (p : nat) : list (V * nat) :=
  match m with
  | [] => [(v, p)]
  | (w, q) :: t => if veqb w v then (w, p) :: t else (w, q) :: upsert t v p
  end.
(** hash_key_finder constructor; sorted_string_map_def.inl:46-54.  The hash map is an
    association list with distinct keys. *)
Fixpoint hash_build (l : list entry) (pos : nat) (m : list (V * nat)) : list (V * nat) :=
  match l with
  | [] => m
  | e :: t => hash_build t (S pos) (upsert m (snd e) pos)
  end.
(** m_keys.find; sorted_string_map_def.inl:59 *)
Fixpoint assoc (m : list (V * nat)) (v : V) : option nat :=
  match m with [] => None | (w, q) :: t => if veqb w v then Some q else assoc t v end.
(** hash_key_finder::operator(); sorted_string_map_def.inl:56-65 *)
Definition hash_find (l : list entry) (v : V) : res (list Z) :=
  match assoc (hash_build l 0 []) v with
  | None => Ok []
  | Some p => let* e := deref (nth_error l p) in Ok (fst e)
  end.
(** std::is_sorted with compare, as called by the constructor;
    sorted_string_map_def.inl:17-26, 76 *)
Fixpoint is_sorted (l : list entry) : bool :=
  match l with
  | a :: ((b :: _) as t) => if sv_ltb (fst b) (fst a) then false else is_sorted t
  | _ => true
  end.
(** The constructors; sorted_string_map_def.inl:68-84.  [debug] says whether
    MDDS_SORTED_STRING_MAP_DEBUG is defined; the map is the table itself. *)
Definition ssm_make (debug : bool) (l : list entry) : res (list entry) :=
  if debug && negb (is_sorted l) then Throw E_invalid_arg else Ok l.
(** size(); sorted_string_map_def.inl:116-120 *)
Definition ssm_size (l : list entry) : nat := length l.
End SSM.
