(** Wrappers of disposables: owning, not owning, empty; disposal by the last owner.
    /repo/src/rpp/rpp/disposables/disposable_wrapper.hpp, with composite_disposable.hpp and the
    references of refcount_disposable.hpp.  One thread; the user's program works on a fixed
    number of variables that hold wrappers.  std::shared_ptr is its owner count. *)
From Verif Require Import Base WrapSpec.

(** disposable_wrapper.hpp:100: monostate, shared_ptr, weak_ptr *)
Inductive wrap := WEmpty | WStrong (o : nat) | WWeak (o : nat).

(** The type a wrapper is declared with (interface_composite_disposable is the one add_ref
    uses); only that type decides whether the object learns its own address (137-140). *)
Inductive wty := TIface | TRefcount | TRefInner.
Definition knows_self (t : wty) : bool := match t with TIface => false | _ => true end.

Inductive wop :=
| OMake (v : nat)                         (* v = wrapper<refcount_disposable>::make() *)
| OAddRef (v w : nat) (strong : bool)     (* v = w.lock()->add_ref(mode), refcount_disposable.hpp:99-115 *)
| OCopy (v w : nat)
| OWeak (v w : nat)                       (* v = w.as_weak() *)
| OReset (v : nat)                        (* v = empty(), or v goes out of scope *)
| ODispose (v : nat)
| OAdd (v w : nat)                        (* v.add(w) *)
| ORemove (v w : nat).

Inductive wact :=
| AUser (x : wop)
| ADispW (w : wrap)                 (* w.dispose() *)
| ADisp (o : nat) (destr : bool)    (* dispose_impl(mode) *)
| ARemSelf (o : nat)                (* refcount_disposable.hpp:84 *)
| AState (o : nat)                  (* refcount_disposable.hpp:88 *)
| AClr (o : nat)                    (* composite_disposable.hpp:54 *)
| AAdd (p : nat) (w : wrap)         (* composite_disposable.hpp:65-94 *)
| ARem (p : nat) (w : wrap)         (* composite_disposable.hpp:96-121 *)
| ADrop (w : wrap).                 (* destructor of a wrapper *)

Record ws := WS {
  w_slots : list wrap;              (* the user's variables *)
  w_n : nat;                        (* objects made so far *)
  w_cnt : nat -> nat;               (* owner count of object o *)
  w_gone : nat -> bool;             (* owner count reached zero *)
  w_disp : nat -> bool;             (* composite_disposable.hpp: State::Disposed *)
  w_kids : nat -> list wrap;        (* m_disposables *)
  w_self : nat -> bool;             (* enable_wrapper_from_this: m_weak is set *)
  w_state : nat -> wrap;            (* refocunt_disposable_inner::m_state *)
  w_todo : list wact
}.

Definition upd {X} (f : nat -> X) (i : nat) (v : X) : nat -> X := fun j => if j =? i then v else f j.
Fixpoint put (l : list wrap) (v : nat) (w : wrap) : list wrap :=
  match l, v with
  | [], _ => []
  | _ :: r, 0 => w :: r
  | x :: r, S v => x :: put r v w
  end.
Definition get (s : ws) (v : nat) : wrap := nth v (w_slots s) WEmpty.

(** disposable_wrapper.hpp:88-97: get().first, None is nullptr *)
Definition target (s : ws) (w : wrap) : option nat :=
  match w with
  | WEmpty => None
  | WStrong o | WWeak o => if w_gone s o then None else Some o
  end.
Definition is_disposed (s : ws) (w : wrap) : bool :=      (* 62-67 *)
  match target s w with None => true | Some o => w_disp s o end.
Definition same_target (s : ws) (a b : wrap) : bool :=    (* 57-60 *)
  match target s a, target s b with
  | None, None => true
  | Some x, Some y => x =? y
  | _, _ => false
  end.
(** 184-190 *)
Definition as_weak (w : wrap) : wrap := match w with WStrong o => WWeak o | _ => w end.
(** 234-238 *)
Definition from_this (s : ws) (o : nat) : wrap := if w_self s o && negb (w_gone s o) then WStrong o else WEmpty.

(** A wrapper is copied: one more owner. *)
Definition own (c : nat -> nat) (w : wrap) : nat -> nat := match w with WStrong o => upd c o (S (c o)) | _ => c end.

Definition wexec (s : ws) (a : wact) : ws * list wact * list wev :=
  let '(WS sl n c g d k sf st td) := s in
  (* a variable gets a new wrapper, the old one is destroyed; a variable that does not exist is no program *)
  let assign v w c' := if v <? length sl then (WS (put sl v w) n c' g d k sf st td, [ADrop (nth v sl WEmpty)], []) else (s, [], []) in
  match a with
  | AUser (OMake v) =>          (* 131-143: make_shared, auto_dispose_wrapper *)
      if v <? length sl
      then (WS (put sl v (WStrong n)) (S n) (upd c n 1) g d k (upd sf n (knows_self TRefcount)) st td, [ADrop (nth v sl WEmpty)], [])
      else (s, [], [])
  | AUser (OAddRef v w strong) =>
      match target s (nth w sl WEmpty) with
      | None => (s, [], [])     (* w.lock() is nullptr: no program *)
      | Some r =>
          if v <? length sl
          then let m := if strong then WWeak r else WStrong r in
               (WS (put sl v (WStrong n)) (S n) (own (own (upd c n 1) m) (WStrong r)) g d k (upd sf n (knows_self TIface)) (upd st n m) td,
                [AAdd r (if strong then WStrong n else WWeak n); ADrop (WStrong r); ADrop (nth v sl WEmpty)], [ERef n r strong])
          else (s, [], [])
      end
  | AUser (OCopy v w) => assign v (nth w sl WEmpty) (own c (nth w sl WEmpty))
  | AUser (OWeak v w) => assign v (as_weak (nth w sl WEmpty)) c
  | AUser (OReset v) => assign v WEmpty c
  | AUser (ODispose v) =>
      let w := nth v sl WEmpty in
      (s, [ADispW w], match target s w with None => [] | Some o => [EUser o] end)
  | AUser (OAdd v w) =>         (* 160-167 *)
      let x := nth w sl WEmpty in
      match target s (nth v sl WEmpty) with
      | None => (s, [ADispW x], match target s x with None => [] | Some o => [ERefused o] end)
      | Some p => (WS sl n (own c (WStrong p)) g d k sf st td, [AAdd p x; ADrop (WStrong p)], [])
      end
  | AUser (ORemove v w) =>      (* 169-174 *)
      match target s (nth v sl WEmpty) with
      | None => (s, [], [])
      | Some p => (WS sl n (own c (WStrong p)) g d k sf st td, [ARem p (nth w sl WEmpty); ADrop (WStrong p)], [])
      end
  | ADispW w =>                 (* 69-73: the lock owns the object during the call *)
      match target s w with
      | None => (s, [], [])
      | Some o => (WS sl n (own c (WStrong o)) g d k sf st td, [ADisp o false; ADrop (WStrong o)], [])
      end
  | ADisp o destr =>            (* composite_disposable.hpp:41-61; once disposed, the children do not
                                   change any more, so they can be read here *)
      if d o then (s, [], [])
      else (WS sl n c g (upd d o true) k sf st td,
            (if destr then [] else [ARemSelf o]) ++ AState o :: map ADispW (k o) ++ [AClr o], [EDisp o])
  | ARemSelf o =>               (* the lock of m_state is the owner during the call *)
      match target s (st o) with
      | None => (s, [], [])
      | Some p => (WS sl n (own c (WStrong p)) g d k sf st td, [ARem p (from_this s o); ADrop (WStrong p)], [])
      end
  | AState o => (WS sl n c g d k sf (upd st o WEmpty) td, [ADrop (st o)], [])
  | AClr o => (WS sl n c g d (upd k o []) sf st td, map ADrop (k o), [])
  | AAdd p w =>
      match target s w with
      | None => (s, [], [])
      | Some o =>
          if d o || (o =? p) then (s, [], [])
          else if d p then (s, [ADispW w], [ERefused o])
          else (WS sl n (own c w) g d (upd k p (k p ++ [w])) sf st td, [], [EAdd p o])
      end
  | ARem p w =>
      if d p then (s, [], [])
      else (WS sl n c g d (upd k p (filter (fun x => negb (same_target s x w)) (k p))) sf st td,
            map ADrop (filter (fun x => same_target s x w) (k p)), [])
  | ADrop (WStrong o) =>        (* 43-46: the last owner disposes *)
      match c o with
      | 1 => (WS sl n (upd c o 0) (upd g o true) d k sf st td, [ADisp o true], [ELast o])
      | _ => (WS sl n (upd c o (pred (c o))) g d k sf st td, [], [])
      end
  | ADrop _ => (s, [], [])
  end.
(** Not modelled: release() of the count (C11), clear() (C10), callbacks that run user code. *)

Definition wstep (s : ws) : ws * list wev :=
  match w_todo s with
  | [] => (s, [])
  | a :: r =>
      let '(s', l, e) := wexec s a in
      (WS (w_slots s') (w_n s') (w_cnt s') (w_gone s') (w_disp s') (w_kids s') (w_self s') (w_state s') (l ++ r), e)
  end.
Fixpoint wsteps (n : nat) (s : ws) : ws * list wev :=
  match n with
  | 0 => (s, [])
  | S n => let '(s1, a) := wstep s in let '(s2, b) := wsteps n s1 in (s2, a ++ b)
  end.

(** A program on [vars] variables, all empty at first. *)
Definition w_init (vars : nat) (prog : list wop) : ws :=
  WS (repeat WEmpty vars) 0 (fun _ => 0) (fun _ => false) (fun _ => false) (fun _ => []) (fun _ => false) (fun _ => WEmpty) (map AUser prog).

(** Who owns object o: a variable, a composite, a reference's back pointer. *)
Definition owned (s : ws) (o : nat) : Prop :=
  In (WStrong o) (w_slots s) \/ (exists p, p < w_n s /\ In (WStrong o) (w_kids s p)) \/ exists p, p < w_n s /\ w_state s p = WStrong o.
