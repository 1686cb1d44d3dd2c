(** What subjects have to do, as functions of the history of calls. *)
From Verif Require Import Base.

(** Calls on a subject: subscription of observer i, its unsubscription, an event pushed
    into the subject, disposal of the subject. *)
Inductive sop (V : Type) := OSub (i : nat) | OUnsub (i : nat) | OEmit (e : ev V) | ODispose.
Arguments OSub {V} i.
Arguments OUnsub {V} i.
Arguments OEmit {V} e.
Arguments ODispose {V}.

(** How the subject ended: not yet, with a terminal event, by disposal. *)
Inductive fin (V : Type) := Open | Ended (e : ev V) | Dropped.
Arguments Open {V}.
Arguments Ended {V} e.
Arguments Dropped {V}.

(** Events that observer i receives.  [on]: it is subscribed; [first]: what a new subscriber
    of an open subject gets at once (nothing for publish_subject). *)
Fixpoint received_from {V S} (upd : S -> V -> S) (first : S -> list V) (i : nat) (on : bool) (f : fin V) (s : S) (h : list (sop V)) : list (ev V) :=
  match h with
  | [] => []
  | OSub j :: r =>
      if j =? i then match f with
                     | Open => map Next (first s) ++ received_from upd first i true f s r
                     | Ended e => e :: received_from upd first i false f s r
                     | Dropped => received_from upd first i false f s r
                     end
      else received_from upd first i on f s r
  | OUnsub j :: r => if j =? i then [] else received_from upd first i on f s r
  | OEmit e :: r =>
      match f with
      | Open => (if on then [e] else []) ++
                received_from upd first i on (if is_term e then Ended e else Open) (match e with Next v => upd s v | _ => s end) r
      | _ => received_from upd first i on f s r
      end
  | ODispose :: r => received_from upd first i on (match f with Open => Dropped | _ => f end) s r
  end.

(** publish_subject *)
Definition received {V} (i : nat) (h : list (sop V)) : list (ev V) :=
  received_from (fun (s : unit) _ => s) (fun _ => []) i false Open tt h.
(** behavior_subject: the latest value comes first. *)
Definition received_latest {V} (v0 : V) (i : nat) (h : list (sop V)) : list (ev V) :=
  received_from (fun (_ v : V) => v) (fun s => [s]) i false Open v0 h.

Definition subs {V} (h : list (sop V)) : list nat := flat_map (fun o => match o with OSub i => [i] | _ => [] end) h.
Definition unsubbed {V} (i : nat) (h : list (sop V)) : bool :=
  existsb (fun o => match o with OUnsub j => j =? i | _ => false end) h.

(** replay_subject: calls carry the time at which they are made.  The values that are still
    to be replayed at time t: the last [limit] ones that are not older than [age]. *)
Definition lastn {X} (limit : option nat) (l : list X) : list X :=
  match limit with Some n => skipn (length l - n) l | None => l end.
Definition young (age : option nat) (t : nat) (t0 : nat) : bool := match age with Some a => t - t0 <=? a | None => true end.
Definition kept {V} (limit age : option nat) (t : nat) (past : list (V * nat)) : list V :=
  map fst (filter (fun x => young age t (snd x)) (lastn limit past)).
Fixpoint replayed_from {V} (limit age : option nat) (i : nat) (on : bool) (f : fin V) (past : list (V * nat)) (h : list (nat * sop V)) : list (ev V) :=
  match h with
  | [] => []
  | (t, OSub j) :: r =>
      if j =? i then map Next (kept limit age t past) ++
                     match f with
                     | Open => replayed_from limit age i true f past r
                     | Ended e => e :: replayed_from limit age i false f past r
                     | Dropped => replayed_from limit age i false f past r
                     end
      else replayed_from limit age i on f past r
  | (_, OUnsub j) :: r => if j =? i then [] else replayed_from limit age i on f past r
  | (t, OEmit e) :: r =>
      match f with
      | Open => (if on then [e] else []) ++
                replayed_from limit age i on (if is_term e then Ended e else Open) (match e with Next v => past ++ [(v, t)] | _ => past end) r
      | _ => replayed_from limit age i on f past r
      end
  | (_, ODispose) :: r => replayed_from limit age i on (match f with Open => Dropped | _ => f end) past r
  end.
Definition replayed {V} (limit age : option nat) (i : nat) (h : list (nat * sop V)) : list (ev V) :=
  replayed_from limit age i false Open [] h.

(** Times never decrease. *)
Fixpoint in_time (t : nat) (ts : list nat) : Prop := match ts with [] => True | x :: r => t <= x /\ in_time x r end.
