(** connectable_observable and ref_count, one thread, over a publish_subject (SubjModel):
    /repo/src/rpp/rpp/observables/connectable_observable.hpp:22-119.
    Simplifications: callbacks do nothing with the observable; a reference of an observer that
    disposes itself during an event is released at the end of that event. *)
From Verif Require Import Base Machine SubjSpec SubjModel ConnSpec.

Section Conn.
  Context {V : Type} (D : machine V).
  (** A connection: refcount_disposable (made by ref_count) or composite_disposable (made by
      connect()), with the subscription of the source it holds. *)
  Record cw := CW {
    cw_cnt : option nat;      (* refcount_disposable.hpp:65 m_refcount; None: s_disposed *)
    cw_flag : bool;           (* is_disposed() *)
    cw_src : bool             (* holds the source's disposable *)
  }.
  Record cn := CN {
    c_g : subj D;                  (* m_subject, 118 *)
    c_w : list cw;
    c_cur : option nat;            (* connectable's m_state->disposable, 130-134 *)
    c_ref : option nat;            (* ref_count's m_state->disposable, 32 *)
    c_own : list (nat * nat)       (* observers holding a reference, 45 *)
  }.
  Definition cget (c : cn) (k : nat) : cw := nth k (c_w c) (CW None true false).
  Fixpoint cset (l : list cw) (k : nat) (w : cw) : list cw :=
    match l, k with [], _ => [] | _ :: r, 0 => w :: r | x :: r, S k => x :: cset r k w end.
  Definition set_w (c : cn) (k : nat) (w : cw) : cn := CN (c_g c) (cset (c_w c) k w) (c_cur c) (c_ref c) (c_own c).
  Definition set_g (c : cn) (g : subj D) : cn := CN g (c_w c) (c_cur c) (c_ref c) (c_own c).
  Definition set_own (c : cn) (l : list (nat * nat)) : cn := CN (c_g c) (c_w c) (c_cur c) (c_ref c) l.
  Definition down (c : cn) (o : option nat) : bool := match o with Some k => cw_flag (cget c k) | None => true end.

  (** dispose() of connection k: composite_disposable.hpp:49-54, refcount_disposable.hpp:48-51 *)
  Definition cut (c : cn) (k : nat) : cn * list (clab V) :=
    (set_w c k (CW None true false), if cw_src (cget c k) then [JOff k] else []).
  (** refcount_disposable.hpp:33-46 *)
  Definition release (c : cn) (k : nat) : cn * list (clab V) :=
    match cw_cnt (cget c k) with
    | Some 1 => cut c k
    | Some n => (set_w c k (CW (Some (n - 1)) (cw_flag (cget c k)) (cw_src (cget c k))), [])
    | None => (c, [])
    end.
  Fixpoint releases (c : cn) (l : list (nat * nat)) : cn * list (clab V) :=
    match l with
    | [] => (c, [])
    | x :: r => let (c1, l1) := release c (snd x) in let (c2, l2) := releases c1 r in (c2, l1 ++ l2)
    end.
  (** Observers that are disposed dispose their upstream, hence their reference. *)
  Definition off (c : cn) (x : nat * nat) : bool := mdisp D (s_sub D (c_g c) (fst x)).
  Definition settle (c : cn) : cn * list (clab V) :=
    let (c1, ls) := releases c (filter (off c) (c_own c)) in
    (set_own c1 (filter (fun x => negb (off c x)) (c_own c)), ls).

  (** connect(wrapper), 100-115 *)
  Definition connect (c : cn) (k : nat) : cn * list (clab V) :=
    if s_flag D (c_g c) then (c, [])                                   (* 104-105 *)
    else if negb (down c (c_cur c)) then (c, [])                       (* 107-108 *)
    else
      let c1 := CN (c_g c) (c_w c) (Some k) (c_ref c) (c_own c) in     (* 110 *)
      if cw_flag (cget c1 k) then (c1, [])                             (* observable.hpp:110-113 *)
      else (set_w c1 k (CW (cw_cnt (cget c1 k)) false true), [JOn k]). (* 113 *)
  Definition fresh (c : cn) (n : nat) : cn := CN (c_g c) (c_w c ++ [CW (Some n) false false]) (c_cur c) (c_ref c) (c_own c).

  (** on_subscribe, 52-60: the reference and the disposable to connect with *)
  Definition acquire (c : cn) (i : nat) : cn * option nat :=
    if negb (down c (c_ref c))
    then match c_ref c with
         | Some k => match cw_cnt (cget c k) with
                     | Some n => (set_own (set_w c k (CW (Some (S n)) (cw_flag (cget c k)) (cw_src (cget c k)))) (c_own c ++ [(i, k)]), None)
                     | None => (c, None)
                     end
         | None => (c, None)
         end
    else let k := length (c_w c) in
         let c1 := fresh c 1 in
         (CN (c_g c1) (c_w c1) (c_cur c1) (Some k) (c_own c1 ++ [(i, k)]), Some k).

  Definition hop_step (c : cn) (o : hop V) : option (cn * list (clab V)) :=
    match o with
    | HSub i => Some (set_g c (on_subscribe D (c_g c) i), [])
    | HRef i =>                                                        (* 41-49 *)
        let (c1, up) := acquire c i in
        let (c2, l2) := settle c1 in                                   (* 45: set_upstream *)
        let (c3, l3) := settle (set_g c2 (on_subscribe D (c_g c2) i)) in
        match up with
        | Some k => if cw_flag (cget c3 k) then Some (c3, l2 ++ l3)
                    else let (c4, l4) := connect c3 k in Some (c4, l2 ++ l3 ++ l4)
        | None => Some (c3, l2 ++ l3)
        end
    | HUnsub i => Some (settle (set_g c (unsubscribe D (c_g c) i)))
    | HConnect => let k := length (c_w c) in Some (connect (fresh c 0) k)
    | HCut k => Some (cut c k)
    | HSrc k e =>
        if cw_src (cget c k) && negb (cw_flag (cget c k))
        then match emit D (fun _ _ => []) (c_g c) e with
             | Some g =>
                 (* on_error / on_completed dispose the observer's disposable afterwards: observer.hpp *)
                 let (c1, l1) := settle (set_g c g) in
                 let (c2, l2) := if is_term e then cut c1 k else (c1, []) in
                 Some (c2, JEmit e :: l1 ++ l2)
             | None => None
             end
        else Some (c, [])
    end.
  Fixpoint hop_run (c : cn) (h : list (hop V)) : option (cn * list (hop V * list (clab V))) :=
    match h with
    | [] => Some (c, [])
    | o :: r => match hop_step c o with
                | Some (c1, ls) => match hop_run c1 r with Some (c2, t) => Some (c2, (o, ls) :: t) | None => None end
                | None => None
                end
    end.
  Definition cn_init (d0 : mst D) : cn := CN (subj_init D d0) [] None None [].
End Conn.
