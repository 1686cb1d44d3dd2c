(** The state behind every subject: /repo/src/rpp/rpp/subjects/details/subject_state.hpp.
    One thread; what observers do inside their on_next callback is a parameter. *)
From Verif Require Import Base Machine SubjSpec.

(** What an observer's on_next callback does with the subject.  Simplification: callbacks of
    on_error and on_completed do nothing with it. *)
Inductive act := ASub (j : nat) | AUnsub (j : nat) | ADispose.

Section Subject.
  Context {V : Type} (D : machine V).

  (** state_t, subject_state.hpp:72; observers are kept in deques behind shared pointers,
      here addresses of a heap. *)
  Inductive sstate := SObs (p : option nat) | SErr (x : exn) | SDone | SDisp.
  Record subj := SJ {
    s_st : sstate;                 (* m_state, 190 *)
    s_heap : list (list nat);      (* the deques; observers are numbered *)
    s_flag : bool;                 (* composite_disposable: is_disposed() *)
    s_sub : nat -> mst D           (* the observers *)
  }.

  Definition set_st (g : subj) (s : sstate) : subj := SJ s (s_heap g) (s_flag g) (s_sub g).
  Definition set_sub (g : subj) (i : nat) (d : mst D) : subj :=
    SJ (s_st g) (s_heap g) (s_flag g) (fun j => if j =? i then d else s_sub g j).
  Definition deque (g : subj) (p : nat) : list nat := nth p (s_heap g) [].
  Definition content (g : subj) (p : option nat) : list nat := match p with Some p => deque g p | None => [] end.
  (** std::make_shared<observers> *)
  Definition alloc (g : subj) (l : list nat) : subj := SJ (SObs (Some (length (s_heap g)))) (s_heap g ++ [l]) (s_flag g) (s_sub g).
  Fixpoint push (h : list (list nat)) (p : nat) (i : nat) : list (list nat) :=
    match h, p with
    | [], _ => []
    | l :: r, 0 => (l ++ [i]) :: r
    | l :: r, S p => l :: push r p i
    end.

  (** disposable_with_observer::base_dispose_impl, 54-64, and cleanup_observers, 159-172 *)
  Definition cleanup (g : subj) (i : nat) : subj :=
    match s_st g with
    | SObs p => alloc g (filter (fun j => negb (j =? i) && negb (mdisp D (s_sub g j))) (content g p))
    | _ => g
    end.

  (** An event for observer i; if it disposes itself, it disposes its upstream. *)
  Definition notify (g : subj) (i : nat) (e : ev V) : subj :=
    let d := mstep D (s_sub g i) e in
    if mdisp D d && negb (mdisp D (s_sub g i)) then cleanup (set_sub g i d) i else set_sub g i d.

  (** on_subscribe, 80-110; the last step is set_upstream, observer.hpp:49-66 *)
  Definition on_subscribe (g : subj) (i : nat) : subj :=
    match s_st g with
    | SObs p =>
        let g1 := match p with
                  | None => alloc g [i]
                  | Some a => SJ (s_st g) (push (s_heap g) a i) (s_flag g) (s_sub g)
                  end in
        if mdisp D (s_sub g1 i) then cleanup g1 i else g1
    | SErr x => set_sub g i (mstep D (s_sub g i) (Err x))
    | SDone => set_sub g i (mstep D (s_sub g i) Done)
    | SDisp => g
    end.

  (** The subscription of observer i is disposed from outside. *)
  Definition unsubscribe (g : subj) (i : nat) : subj := cleanup (set_sub g i (mkill D (s_sub g i))) i.

  (** composite_dispose_impl, 154-157, exchange_observers_under_lock_if_there, 179-187 *)
  Definition exchange (g : subj) (s : sstate) : subj := match s_st g with SObs _ => set_st g s | _ => g end.
  Definition dispose (g : subj) : subj :=
    let g1 := exchange g SDisp in SJ (s_st g1) (s_heap g1) true (s_sub g1).

  Definition do_act (g : subj) (a : act) : subj :=
    match a with ASub j => on_subscribe g j | AUnsub j => unsubscribe g j | ADispose => dispose g end.

  Variable react : nat -> V -> list act.

  (** on_next, 129-130: std::for_each over the iterators taken before.  push_back
      invalidates all iterators of a deque: going on with them is undefined behaviour
      (None). *)
  Fixpoint deliver (v : V) (p len : nat) (ids : list nat) (g : subj) : option subj :=
    match ids with
    | [] => Some g
    | i :: r =>
        let g1 := notify g i (Next v) in
        let g2 := if mdisp D (s_sub g i) then g1 else fold_left do_act (react i v) g1 in
        if length (deque g2 p) =? len then deliver v p len r g2 else None
    end.

  Definition on_next (g : subj) (v : V) : option subj :=
    match s_st g with
    | SObs (Some p) => deliver v p (length (deque g p)) (deque g p) g       (* 112-130 *)
    | _ => Some g
    end.
  (** on_error, on_completed, 133-151 *)
  Definition on_term (g : subj) (s : sstate) (e : ev V) : subj :=
    match s_st g with
    | SObs p => dispose (fold_left (fun g i => notify g i e) (content g p) (set_st g s))
    | _ => dispose g
    end.

  (** The subject's observer: publish_subject.hpp:24-39 (nothing once the state is disposed). *)
  Definition emit (g : subj) (e : ev V) : option subj :=
    if s_flag g then Some g
    else match e with
         | Next v => on_next g v
         | Err x => Some (on_term g (SErr x) e)
         | Done => Some (on_term g SDone e)
         end.

  Definition sop_step (g : subj) (o : sop V) : option subj :=
    match o with
    | OSub i => Some (on_subscribe g i)           (* publish_subject.hpp:51-54 *)
    | OUnsub i => Some (unsubscribe g i)
    | OEmit e => emit g e
    | ODispose => Some (dispose g)                (* publish_subject.hpp:56-59 *)
    end.
  Fixpoint sop_run (g : subj) (h : list (sop V)) : option subj :=
    match h with
    | [] => Some g
    | o :: r => match sop_step g o with Some g' => sop_run g' r | None => None end
    end.
  Definition subj_init (d : mst D) : subj := SJ (SObs None) [] false (fun _ => d).
End Subject.

Section Behavior.
  Context {V : Type} (D : machine V).
  (** behavior_subject.hpp:27-43: the subject's state and the latest value. *)
  Definition bstate : Type := subj D * V.
  Definition bop_step (b : bstate) (o : sop V) : option bstate :=
    match o with
    | OSub i =>                                                     (* behavior_subject.hpp:84-95 *)
        let g := fst b in
        let g1 := if s_flag D g then g else set_sub D g i (mstep D (s_sub D g i) (Next (snd b))) in
        Some (on_subscribe D g1 i, snd b)
    | OEmit e =>                                                    (* 53-63 *)
        if s_flag D (fst b) then Some b
        else match emit D (fun _ _ => []) (fst b) e with
             | Some g => Some (g, match e with Next v => v | _ => snd b end)
             | None => None
             end
    | _ => match sop_step D (fun _ _ => []) (fst b) o with Some g => Some (g, snd b) | None => None end
    end.
  Fixpoint bop_run (b : bstate) (h : list (sop V)) : option bstate :=
    match h with
    | [] => Some b
    | o :: r => match bop_step b o with Some b' => bop_run b' r | None => None end
    end.
End Behavior.

Section Replay.
  Context {V : Type} (D : machine V) (limit age : option nat).
  (** replay_subject.hpp:28-83: the subject's state and the buffer with its timestamps.
      [limit] = None: std::numeric_limits<size_t>::max(); [age] = None: duration::max(). *)
  Definition rstate : Type := subj D * list (V * nat).

  (** deduce_timepoint, 66-75 *)
  Fixpoint pop_old (a t : nat) (l : list (V * nat)) : list (V * nat) :=
    match l with
    | [] => []
    | x :: r => if a <? t - snd x then pop_old a t r else l
    end.
  Definition deduce (t : nat) (l : list (V * nat)) : list (V * nat) := match age with Some a => pop_old a t l | None => l end.
  Definition stamp (t : nat) : nat := match age with Some _ => t | None => 0 end.
  (** add_value, 36-43 *)
  Definition pop_full (l : list (V * nat)) : list (V * nat) :=
    match limit with Some n => skipn (S (length l) - n) l | None => l end.
  Definition add_value (t : nat) (v : V) (l : list (V * nat)) : list (V * nat) := deduce t (pop_full l) ++ [(v, stamp t)].

  Definition rop_step (b : rstate) (x : nat * sop V) : option rstate :=
    let (t, o) := x in
    match o with
    | OSub i =>                                                     (* 129-137, get_actual_values 58-63 *)
        let l := deduce t (snd b) in
        Some (on_subscribe D (set_sub D (fst b) i (mrun D (s_sub D (fst b) i) (map (fun x => Next (fst x)) l))) i, l)
    | OEmit e =>                                                    (* 93-103 *)
        if s_flag D (fst b) then Some b
        else match emit D (fun _ _ => []) (fst b) e with
             | Some g => Some (g, match e with Next v => add_value t v (snd b) | _ => snd b end)
             | None => None
             end
    | _ => match sop_step D (fun _ _ => []) (fst b) o with Some g => Some (g, snd b) | None => None end
    end.
  Fixpoint rop_run (b : rstate) (h : list (nat * sop V)) : option rstate :=
    match h with
    | [] => Some b
    | o :: r => match rop_step b o with Some b' => rop_run b' r | None => None end
    end.
End Replay.
