(** group_by and window followed by merge or switch_on_next, on one thread.
    group_by: /repo/src/rpp/rpp/operators/group_by.hpp:94-137; window:
    /repo/src/rpp/rpp/operators/window.hpp:53-89; merge: /repo/src/rpp/rpp/operators/merge.hpp:39-135;
    flat_map(f) is map(f) | merge() (/repo/src/rpp/rpp/operators/flat_map.hpp:22-40);
    switch_on_next: /repo/src/rpp/rpp/operators/switch_on_next.hpp:40-130. *)
From Verif Require Import Base Machine ObserverModel MultiSpec MultiModel OpsModel ChainSpec ChainModel TreeSpec TreeModel FairModel SubjSpec FanSpec FanModel.
Open Scope nat_scope.

(** group_by.hpp:94-137 with selectors that do not throw.  The state is key_to_observer, a
    std::map ordered by the key (68): on_error and on_completed go through the groups in
    that order (102-117).  Simplification: keys are numbered in the order of the comparator. *)
Fixpoint map_insert (k : nat) (l : list nat) : list nat :=
  match l with
  | [] => [k]
  | x :: r => if k <? x then k :: l else if k =? x then l else x :: map_insert k r
  end.
Definition regroup_plan {A} (key : A -> nat) (keys : list nat) (e : ev A) : list nat * list (FanModel.mop (V := A)) :=
  match e with
  | Next a => (map_insert (key a) keys, (if existsb (Nat.eqb (key a)) keys then [] else [MNew (key a)]) ++ [MEmit (key a) e])
  | _ => (keys, map (fun k => MEmit k e) keys ++ [MOut (up e)])
  end.

(** The script of a whole source. *)
Fixpoint plan_all {A X} (plan : X -> ev A -> X * list (FanModel.mop (V := A))) (x : X) (es : list (ev A)) : list (FanModel.mop (V := A)) :=
  match es with
  | [] => []
  | e :: r => snd (plan x e) ++ plan_all plan (fst (plan x e)) r
  end.

Section Flat.
  Context {A C : Type} (c : chain A C).
  Notation M := (build c (record_of C)).
  (** The parts in the order of their creation, with the state of their chains.  The chain
      ends in the observer of the flattening operator, which is given what the chain
      passes on (merge.hpp:103-107). *)
  Record flat := FL { fl_parts : list nat; fl_st : nat -> mst M }.
  Definition fl_log (s : mst M) : list (ev C) := o_log (bottom c (record_of C) s).
  Fixpoint pos (k : nat) (l : list nat) : nat :=
    match l with [] => 0 | x :: r => if x =? k then 0 else S (pos k r) end.
  Definition calls_of (j : nat) (l : list (ev C)) : hist (unit + C) := map (fun e => (S j, inner e)) l.
  Definition set_part (k : nat) (s : mst M) (f : nat -> mst M) : nat -> mst M := fun i => if i =? k then s else f i.

  (** One step of the splitting operator as calls on the observers of the flattening one:
      source 0 is the outer observer, source S j that of the j-th part.  MNew: merge.hpp:122-126
      subscribes at once, the chain may emit already then (scan with a seed). *)
  Definition flat_step (x : flat) (m : FanModel.mop (V := A)) : flat * hist (unit + C) :=
    match m with
    | MNew k =>
        let s := build_init c (record_of C) o_init in
        (FL (fl_parts x ++ [k]) (set_part k s (fl_st x)), (0, Next (inl tt)) :: calls_of (length (fl_parts x)) (fl_log s))
    | MEmit k e =>
        let s := fl_st x k in
        let s' := mstep M s e in
        (FL (fl_parts x) (set_part k s' (fl_st x)), calls_of (pos k (fl_parts x)) (skipn (length (fl_log s)) (fl_log s')))
    | MOut e => (x, [(0, match e with Err y => Err y | _ => Done end)])
    | _ => (x, [])
    end.
  Fixpoint flat_calls (x : flat) (ms : list (FanModel.mop (V := A))) : hist (unit + C) :=
    match ms with
    | [] => []
    | m :: r => snd (flat_step x m) ++ flat_calls (fst (flat_step x m)) r
    end.
  Definition fl_init : flat := FL [] (fun _ => build_init c (record_of C) o_init).

  (** The calls are made until the subscriber is over.  Simplification: what the operators
      still do after that is left out; every call then finds is_disposed() (observer.hpp:84). *)
  Fixpoint until_over (o : MultiModel.mop (unit + C) C) (D : machine C) (g : gs o D) (h : hist (unit + C)) : option (gs o D) :=
    match h with
    | [] => Some g
    | (i, e) :: r => if mdisp D (g_down g) then Some g
                     else match run1 o D (fun _ => []) 20 g i e P0 with Some g' => until_over o D g' r | None => None end
    end.

  Definition group_by_flat (o : MultiModel.mop (unit + C) C) (D : machine C) (d0 : mst D) (key : A -> nat) (es : list (ev A)) : option (gs o D) :=
    until_over o D (g_init o D d0) (flat_calls fl_init (plan_all (regroup_plan key) [] es)).
  (** window.hpp:47: a size of 0 is 1. *)
  Definition window_flat (o : MultiModel.mop (unit + C) C) (D : machine C) (d0 : mst D) (size : nat) (es : list (ev A)) : option (gs o D) :=
    until_over o D (g_init o D d0) (flat_calls fl_init (plan_all (fun x e => w_plan (Nat.max 1 size) x false e) (w_init (Nat.max 1 size)) es)).
End Flat.
