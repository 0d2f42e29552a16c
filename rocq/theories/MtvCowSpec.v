(** Specification of copy-on-write: every container of a program is a sequence of
    its own; sharing is visible only through a flag that release() checks and
    through the cloning of the elements when a sharing container is changed.
    Nothing here mentions blocks. *)
From Coq Require Import List ZArith Lia Bool.
From Verif Require Import Base MtvModel MtvModel2 MtvSpec MtvCow.
Import ListNotations.
Open Scope nat_scope.

Section S.
Context {V : Type}.
Variable cat : V -> nat.
Variable managed : nat -> bool.
Variable clone : V -> V.
Variable cloneable copyable : nat -> bool.

(** A container: its elements and whether it shares storage; or moved from; or
    destroyed. *)
Inductive cell := Live (l : list (option V)) (sh : bool) | Moved | Dead.

(** The statements of a program; containers are numbered in the order of their
    creation (an assignment creates a temporary). *)
Inductive wop :=
| WMake (n : nat)
| WRange (n : nat) (vs : list V)
| WClone (x : nat)
| WCopy (x : nat)
| WMove (x : nat)
| WDestroy (x : nat)
| WSwap (x y : nat)
| WAssign (x y : nat)
| WMoveAssign (x y : nat)
| WDetach (x : nat)
| WOp (x : nat) (o : @op V).

(** The modelled statement. *)
Definition wexec (o : wop) (w : world) : res (world * option exn) :=
  match o with
  | WMake n => make_vec n w
  | WRange n vs => make_range cat n vs w
  | WClone x => clone_vec x w
  | WCopy x => copy_vec copyable x w
  | WMove x => move_vec x w
  | WDestroy x => destroy_vec managed x w
  | WSwap x y => swap_vec x y w
  | WAssign x y => assign_vec managed copyable x y w
  | WMoveAssign x y => move_assign_vec managed x y w
  | WDetach x => detach managed clone cloneable x w
  | WOp x o => vec_op cat managed clone cloneable x o w
  end.

Definition cell_at (x : nat) (a : list cell) : cell := nth x a Dead.

(** Every element satisfies [f] (a property of its type). *)
Definition every (f : nat -> bool) (l : list (option V)) : bool :=
  forallb (fun x => match x with Some v => f (cat v) | None => true end) l.

(** The elements once the container has storage of its own. *)
Definition unshared (l : list (option V)) (sh : bool) : list (option V) :=
  if sh then map (option_map clone) l else l.

(** Calls that return or throw before they look at the storage. *)
Definition quick (o : @op V) (l : list (option V)) : option (option exn) :=
  match o with
  | OSetRange _ _ [] => Some None
  | OSetRange _ pos (v :: vs) =>
      if pos + length vs <? length l then None else Some (Some E_out_of_range)
  | OErase a b => if a <=? b then None else Some (Some E_out_of_range)
  | OInsertEmpty _ _ O => Some None
  | _ => None
  end.

(** One call on a container. *)
Definition aop (o : @op V) (l : list (option V)) (sh : bool) : cell * option exn :=
  match quick o l with
  | Some r => (Live l sh, r)
  | None =>
      if sh && is_release o then (Live l sh, Some E_shared_block)
      else
        match o with
        | OClear => (Live [] false, None)
        | _ =>
            if sh && negb (every cloneable l) then (Live l sh, Some E_element_block)
            else
              match spec o (unshared l sh) with
              | Some l' => (Live l' false, None)
              | None => (Live (unshared l sh) false, Some E_out_of_range)
              end
        end
  end.

(** What a statement should do to the containers, and what it throws. *)
Definition aspec (o : wop) (a : list cell) : list cell * option exn :=
  match o with
  | WMake n => (a ++ [Live (repeat None n) false], None)
  | WRange n vs =>
      if (n =? 0) || (n =? length vs)
      then (a ++ [Live (map Some (firstn n vs)) false], None)
      else (a, Some E_invalid_arg)
  | WClone x =>
      match cell_at x a with
      | Live l _ => (set_nth x (Live l true) a ++ [Live l true], None)
      | _ => (a, None)
      end
  | WCopy x =>
      match cell_at x a with
      | Live l _ =>
          if every copyable l then (set_nth x (Live l true) a ++ [Live l true], None)
          else (a, Some E_element_block)
      | _ => (a, None)
      end
  | WMove x => (set_nth x Moved a ++ [cell_at x a], None)
  | WDestroy x => (set_nth x Dead a, None)
  | WSwap x y => (set_nth y (cell_at x a) (set_nth x (cell_at y a) a), None)
  | WAssign x y =>
      match cell_at y a with
      | Live l _ =>
          if every copyable l
          then (set_nth x (Live l true) (set_nth y (Live l true) a) ++ [Dead], None)
          else (a, Some E_element_block)
      | _ => (a, None)
      end
  | WMoveAssign x y => (set_nth x (cell_at y a) (set_nth y Moved a) ++ [Dead], None)
  | WDetach x =>
      match cell_at x a with
      | Live l sh =>
          if sh && negb (every cloneable l) then (a, Some E_element_block)
          else (set_nth x (Live (unshared l sh) false) a, None)
      | _ => (a, None)
      end
  | WOp x o =>
      match cell_at x a with
      | Live l sh => let (c, e) := aop o l sh in (set_nth x c a, e)
      | _ => (set_nth x (Live [] false) a, None)
      end
  end.

(** Statements with defined behaviour: the containers they name exist, a moved-from
    container is only cleared, assigned to, moved, swapped or destroyed, and calls
    are legal in the sense of MtvSpec.v. *)
Definition live (c : cell) : Prop := match c with Live _ _ => True | _ => False end.
Definition wlegal (o : wop) (a : list cell) : Prop :=
  match o with
  | WMake _ => True
  | WRange n vs => one_type cat vs
  | WClone x | WCopy x | WDetach x => live (cell_at x a)
  | WMove x | WDestroy x => cell_at x a <> Dead
  | WSwap x y => cell_at x a <> Dead /\ cell_at y a <> Dead
  | WAssign x y => cell_at x a <> Dead /\ live (cell_at y a)
  | WMoveAssign x y => cell_at x a <> Dead /\ cell_at y a <> Dead
  | WOp x o =>
      match cell_at x a with
      | Live l sh => legal cat managed o (unshared l sh)
      | Moved => o = OClear
      | Dead => False
      end
  end.

(** Histories. *)
Fixpoint wrun (os : list wop) (w : world) : res (world * list (option exn)) :=
  match os with
  | [] => Ok (w, [])
  | o :: os =>
      let* (w, e) := wexec o w in
      let* (w, es) := wrun os w in
      Ok (w, e :: es)
  end.
Fixpoint arun (os : list wop) (a : list cell) : list cell * list (option exn) :=
  match os with
  | [] => (a, [])
  | o :: os =>
      let (a, e) := aspec o a in
      let (a, es) := arun os a in
      (a, e :: es)
  end.
Fixpoint wlegal_all (os : list wop) (a : list cell) : Prop :=
  match os with
  | [] => True
  | o :: os => wlegal o a /\ wlegal_all os (fst (aspec o a))
  end.

(** The program sees, through size() and get(), the cell [c] in container [x]. *)
Definition sees (x : nat) (c : cell) (w : @world V) : Prop :=
  match c with
  | Live l _ =>
      vec_size x w = Ok (length l) /\
      (forall i e, nth_error l i = Some e -> vec_get x i w = Ok e) /\
      (forall i, length l <= i -> vec_get x i w = Throw E_out_of_range)
  | _ => True
  end.

(** ** Ownership *)

(** Managed objects a statement hands over, takes back, or creates. *)
Definition wgiven (o : wop) (a : list cell) : list V :=
  match o, snd (aspec o a) with
  | WRange n vs, None => objects cat managed (map Some (firstn n vs))
  | WOp _ o, None => given cat managed o
  | _, _ => []
  end.
Definition wtaken (o : wop) (a : list cell) : list V :=
  match o, snd (aspec o a) with
  | WOp x o, None =>
      match cell_at x a with Live l _ => taken_back cat managed o l | _ => [] end
  | _, _ => []
  end.
(** Clones: when a sharing container gets storage of its own. *)
Definition wcloned (o : wop) (a : list cell) : list V :=
  match o with
  | WDetach x | WOp x _ =>
      match cell_at x a, cell_at x (fst (aspec o a)) with
      | Live l true, Live _ false =>
          match o with
          | WOp _ OClear => []
          | _ => objects cat managed (map (option_map clone) l)
          end
      | _, _ => []
      end
  | _ => []
  end.

(** Statements that leak (finding M3) are left out of the ownership account. *)
Definition wleaky (o : wop) (a : list cell) : Prop :=
  match o with
  | WOp x o =>
      match cell_at x a with
      | Live l sh => leaky cat managed (unshared l sh) o
      | _ => False
      end
  | _ => False
  end.

Fixpoint wgiven_all (os : list wop) (a : list cell) : list V :=
  match os with
  | [] => []
  | o :: os => wgiven o a ++ wcloned o a ++ wgiven_all os (fst (aspec o a))
  end.
Fixpoint wtaken_all (os : list wop) (a : list cell) : list V :=
  match os with
  | [] => []
  | o :: os => wtaken o a ++ wtaken_all os (fst (aspec o a))
  end.
Fixpoint wclean (bad : wop -> list cell -> Prop) (os : list wop) (a : list cell) : Prop :=
  match os with
  | [] => True
  | o :: os => ~ bad o a /\ wclean bad os (fst (aspec o a))
  end.

(** Everything the program has deleted so far. *)
Definition deleted (w : @world V) : list V :=
  gone w ++ flat_map (fun u => match u with Some v => freed (body v) | None => [] end) (vecs w).

(** Statements whose block events are not covered (findings M1, M4, M8). *)
Definition wexempt (o : wop) (a : list cell) : Prop :=
  match o with
  | WOp x o =>
      match cell_at x a with
      | Live l sh => event_exempt cat (unshared l sh) o
      | _ => False
      end
  | _ => False
  end.

End S.
