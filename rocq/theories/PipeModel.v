(** Chains of operators with delay or observe_on between them, each hop with a worker of its
    own or shared with others.  The hop is delay_state and its functions:
    /repo/src/rpp/rpp/operators/delay.hpp:37-162, observe_on.hpp:41-45 (see DelayModel.v); the chains are those of
    ChainModel.v.  Simplifications: the calls a chain makes for one event are found first and made
    one after the other then; the state of a chain is given by the events it has been given; one value type;
    an error given to observe_on (delay.hpp:116-121) is not modelled (C44): the step is not possible, and the
    theorems ask that no error arrives there. *)
From Verif Require Import Base Machine ObserverModel ChainSpec ChainModel TreeModel Concur DelaySpec.
Open Scope nat_scope.

(** What a chain has passed on after the events l: the chain ends in the observer of the next
    hop, which takes down what it is given (delay.hpp:83-97). *)
Definition seg_log {V} (c : chain V V) (l : list (ev V)) : list (ev V) :=
  o_log (bottom c (record_of V) (mrun (build c (record_of V)) (build_init c (record_of V) o_init) l)).

Section Pipe.
  Context {V : Type} (D : machine V).
  Variable segs : list (chain V V).
  Definition last_seg : nat := length segs - 1.
  Definition seg (i : nat) : chain V V := nth i segs (ChNil V).
  (** Hop i stands before chain i: observe_on or delay, its duration, and its worker: a thread, or
      none if schedule() runs the task itself (immediate). *)
  Record hop := Hop { h_clear : bool; h_delay : nat; h_where : option nat }.
  Variable hops : nat -> hop.

  Record pst := PS {
    p_src : list (ev V);
    p_hist : nat -> list (ev V);        (* the events chain i has been given *)
    p_cur : nat -> list (ev V);         (* item in drain_queue: 149 *)
    p_out : nat -> list (ev V);         (* the calls chain i is making *)
    p_q : nat -> list (ev V * nat);     (* state->queue *)
    p_fin : nat -> bool;                (* the hop's observer has received a terminal event *)
    p_act : nat -> bool;                (* state->is_active *)
    p_pend : list (nat * nat);          (* scheduled tasks: hop and time point *)
    p_now : nat;
    p_d : mst D }.
  Definition upd {X} (i : nat) (v : X) (f : nat -> X) : nat -> X := fun k => if k =? i then v else f k.

  Inductive pitem :=
  | PSrc                  (* the source's next event *)
  | PDrain (i : nat)      (* 137-151 *)
  | PEmit (i : nat)       (* 154-159: the first observer of chain i is called *)
  | PFlush (i : nat)      (* chain i makes its next call *)
  | PBack                 (* the subscriber's callback returns *)
  | PSched (i t : nat)    (* 105-108 *)
  | PTask (i t : nat)     (* a task waits for its time point *)
  | PWork (w : nat)       (* worker thread w looks for a task *)
  | PClock (n : nat)
  | PKill.

  Definition next_of (i : nat) : pitem := match i with 0 => PSrc | _ => PDrain i end.
  Definition on_worker (w : nat) (i : nat) : bool := match h_where (hops i) with Some w' => w' =? w | None => false end.
  Fixpoint pick (w : nat) (l : list (nat * nat)) : option (nat * nat * list (nat * nat)) :=
    match l with
    | [] => None
    | x :: r => if on_worker w (fst x) then Some (x, r) else match pick w r with Some (y, r') => Some (y, x :: r') | None => None end
    end.
  Definition dead (s : pst) : bool := mdisp D (p_d s).
  Definition set_out (s : pst) (i : nat) (r : list (ev V)) : pst :=
    PS (p_src s) (p_hist s) (p_cur s) (upd i r (p_out s)) (p_q s) (p_fin s) (p_act s) (p_pend s) (p_now s) (p_d s).
  Definition set_pend (s : pst) (l : list (nat * nat)) : pst :=
    PS (p_src s) (p_hist s) (p_cur s) (p_out s) (p_q s) (p_fin s) (p_act s) l (p_now s) (p_d s).
  Definition set_cur (s : pst) (i : nat) (l : list (ev V)) (src : list (ev V)) (q : list (ev V * nat)) : pst :=
    PS src (p_hist s) (upd i l (p_cur s)) (p_out s) (upd i q (p_q s)) (p_fin s) (p_act s) (p_pend s) (p_now s) (p_d s).
  (** worker.schedule *)
  Definition to_worker (s : pst) (i t : nat) : pst * list pitem :=
    match h_where (hops i) with
    | None => (s, [PTask i t])
    | Some _ => (set_pend s (p_pend s ++ [(i, t)]), [])
    end.

  Definition pstep (s : pst) (it : pitem) : option (pst * list pitem * list (dlab V)) :=
    match it with
    | PSrc => match p_src s with
              | [] => Some (s, [], [])
              | e :: r => Some (set_cur s 0 [e] r (p_q s 0), [PEmit 0], [])
              end
    | PDrain i => match p_q s i with
                  | [] => Some (PS (p_src s) (p_hist s) (p_cur s) (p_out s) (p_q s) (p_fin s) (upd i false (p_act s)) (p_pend s) (p_now s) (p_d s), [], [])
                  | (e, t) :: r => if t <=? p_now s then Some (set_cur s i [e] (p_src s) r, [PEmit i], [])
                                   else let (s', its) := to_worker s i t in Some (s', its, [])
                  end
    | PEmit i =>                         (* observer.hpp:84-144: a disposed observer does nothing *)
        if dead s then Some (set_cur s i [] (p_src s) (p_q s i), [next_of i], [])
        else let h := p_hist s i ++ p_cur s i in
             Some (PS (p_src s) (upd i h (p_hist s)) (upd i [] (p_cur s))
                      (upd i (skipn (length (seg_log (seg i) (p_hist s i))) (seg_log (seg i) h)) (p_out s))
                      (p_q s) (p_fin s) (p_act s) (p_pend s) (p_now s) (p_d s), [PFlush i], [])
    | PFlush i =>
        match p_out s i with
        | [] => Some (s, [next_of i], [])
        | e :: r =>
            if i =? last_seg then
              if dead s then Some (set_out s i r, [PFlush i], [])
              else Some (PS (p_src s) (p_hist s) (p_cur s) (upd i r (p_out s)) (p_q s) (p_fin s) (p_act s) (p_pend s) (p_now s) (mstep D (p_d s) e), [PBack], [DBeg e (p_now s)])
            else                         (* 78-81, observer.hpp:84-144 *)
              if dead s || p_fin s (S i) then Some (set_out s i r, [PFlush i], [])
              else match e, h_clear (hops (S i)) with
                   | Err _, true => None
                   | _, _ =>             (* 124-131 *)
                       let t := p_now s + h_delay (hops (S i)) in
                       Some (PS (p_src s) (p_hist s) (p_cur s) (upd i r (p_out s)) (upd (S i) (p_q s (S i) ++ [(e, t)]) (p_q s))
                                (upd (S i) (is_term e) (p_fin s)) (upd (S i) true (p_act s)) (p_pend s) (p_now s) (p_d s),
                             (if p_act s (S i) then [] else [PSched (S i) t]) ++ [PFlush i], [])
                   end
        end
    | PBack => Some (s, [PFlush last_seg], [DEnd])
    | PSched i t => let (s', its) := to_worker s i t in Some (s', its, [])
    | PTask i t => if dead s then Some (s, [], [])               (* 63: the handler's is_disposed *)
                   else if t <=? p_now s then Some (s, [PDrain i], []) else None
    | PWork w => match pick w (p_pend s) with
                 | Some ((i, t), r) => Some (set_pend s r, [PTask i t; PWork w], [])
                 | None => None
                 end
    | PClock n => Some (PS (p_src s) (p_hist s) (p_cur s) (p_out s) (p_q s) (p_fin s) (p_act s) (p_pend s) (p_now s + n) (p_d s), [], [])
    | PKill => Some (PS (p_src s) (p_hist s) (p_cur s) (p_out s) (p_q s) (p_fin s) (p_act s) (p_pend s) (p_now s) (mkill D (p_d s)), [], [DKill])
    end.

  (** Subscription goes from the last chain to the first one; a chain may emit then already (scan
      with a seed).  It is written as a first round of every hop with an empty queue. *)
  Definition p_init (src : list (ev V)) (d : mst D) : pst :=
    PS src (fun _ => []) (fun _ => []) (fun i => seg_log (seg i) []) (fun _ => []) (fun _ => false) (fun _ => true) [] 0 d.
  Definition p_threads (workers clock : list nat) (kills : nat) : list (list pitem) :=
    map PFlush (rev (seq 0 (S last_seg))) :: map (fun w => [PWork w]) workers ++ map (fun n => [PClock n]) clock ++ repeat [PKill] kills.
End Pipe.
Arguments PS {V D}.
Arguments p_src {V D} _.
Arguments p_hist {V D} _ _.
Arguments p_cur {V D} _ _.
Arguments p_out {V D} _ _.
Arguments p_q {V D} _ _.
Arguments p_fin {V D} _ _.
Arguments p_act {V D} _ _.
Arguments p_pend {V D} _.
Arguments p_now {V D} _.
Arguments p_d {V D} _.
Arguments dead {V D} _.
