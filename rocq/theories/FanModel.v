(** Operators that hand out observables: window, group_by, window_toggle.  One thread; the
    subscriber of the outer sequence subscribes the observers [now i] inside its on_next. *)
From Verif Require Import Base Machine SubjSpec SubjModel FanSpec.

(** ** The parts they share: subjects, the outer observer and the refcount_disposable *)
Section Fan.
  Context {V : Type} (D : machine V) (O : machine nat) (now : nat -> list nat).

  Record fan := FN {
    f_out : mst O;                   (* the outer observer; it holds a ref *)
    f_subs : nat -> subj D;          (* the subject of window i *)
    f_known : nat -> bool;           (* window i exists *)
    f_lost : nat -> bool;            (* its subject has been destroyed *)
    f_gone : bool;                   (* the refcount_disposable is disposed *)
    f_refs : list (nat * nat)        (* observers that have got a ref by add_ref() *)
  }.

  (** What the operators do, one step of which is atomic for the refcount:
      MNew i: a subject is created and its observable given to the outer observer;
      MEmit i e: subject_observer.on_next/on_error/on_completed; MOut e: the outer observer's
      on_error/on_completed; MLost i: the last reference to the subject's state is dropped.
      MSub, MUnsub, MDrop come from outside. *)
  Inductive mop := MNew (i : nat) | MEmit (i : nat) (e : ev V) | MOut (e : ev nat) | MLost (i : nat)
    | MSub (i j : nat) | MUnsub (i j : nat) | MDrop.

  (** refcount_disposable.hpp:32-52: every ref is released when its observer is disposed; the
      last one disposes the refcount_disposable and with it everything added: the source and
      the subjects.  Simplification: m_refcount is not a number here but derived from
      the observers holding a ref. *)
  Definition holds_ref (f : fan) (p : nat * nat) : bool := negb (mdisp D (s_sub D (f_subs f (fst p)) (snd p))).
  Definition settle (f : fan) : fan :=
    if f_gone f then f
    else if mdisp O (f_out f) && negb (existsb (holds_ref f) (f_refs f))
         then FN (f_out f) (fun i => dispose D (f_subs f i)) (f_known f) (f_lost f) true (f_refs f)
         else f.
  Definition set_subj (f : fan) (i : nat) (g : subj D) : fan :=
    FN (f_out f) (fun k => if k =? i then g else f_subs f k) (f_known f) (f_lost f) (f_gone f) (f_refs f).
  Definition set_out (f : fan) (o : mst O) : fan := FN o (f_subs f) (f_known f) (f_lost f) (f_gone f) (f_refs f).
  (** forwarding_subject.hpp:52-62, group_by.hpp:149-158: add_ref() (no ref once the refcount
      is disposed, refcount_disposable.hpp:97-110), then on_subscribe *)
  Definition add_sub (i : nat) (f : fan) (j : nat) : fan :=
    let f1 := set_subj f i (on_subscribe D (f_subs f i) j) in
    FN (f_out f1) (f_subs f1) (f_known f1) (f_lost f1) (f_gone f1) (if f_gone f1 then f_refs f1 else (i, j) :: f_refs f1).

  (** Once the refcount is disposed, the operators' own observer ignores everything
      (is_disposed(): window.hpp:91, group_by.hpp:91, window_toggle.hpp:181). *)
  Definition fexec (f : fan) (m : mop) : option fan :=
    match m with
    | MNew i =>
        if f_gone f then Some f
        else let f1 := FN (f_out f) (f_subs f) (fun k => (k =? i) || f_known f k) (f_lost f) (f_gone f) (f_refs f) in
             let f2 := if mdisp O (f_out f) then f1 else fold_left (add_sub i) (now i) f1 in
             Some (settle (set_out f2 (mstep O (f_out f2) (Next i))))
    | MEmit i e =>
        if f_gone f then Some f
        else match emit D (fun _ _ => []) (f_subs f i) e with
             | Some g => Some (settle (set_subj f i g))
             | None => None
             end
    | MOut e => if f_gone f then Some f else Some (settle (set_out f (mstep O (f_out f) e)))
    | MLost i =>
        if f_gone f then Some f
        else Some (FN (f_out f) (f_subs f) (f_known f) (fun k => (k =? i) || f_lost f k) (f_gone f) (f_refs f))
    | MSub i j => if f_known f i && negb (f_lost f i) then Some (settle (add_sub i f j)) else Some f
    | MUnsub i j => Some (settle (set_subj f i (unsubscribe D (f_subs f i) j)))
    | MDrop => Some (settle (set_out f (mkill O (f_out f))))
    end.
  Fixpoint fexec_all (f : fan) (t : list mop) : option fan :=
    match t with
    | [] => Some f
    | m :: r => match fexec f m with Some f' => fexec_all f' r | None => None end
    end.
  Definition fan_init (d : mst D) (o : mst O) : fan :=
    settle (FN o (fun _ => subj_init D d) (fun _ => false) (fun _ => false) false []).

  (** ** Histories; [plan x dead e]: the operator's state x, whether the outer observer is
      disposed, an event of its sources *)
  Section Run.
    Context {X E : Type} (plan : X -> bool -> E -> X * list mop).
    Definition ext (o : fop E) : list mop :=
      match o with FEv _ => [] | FSub i j => [MSub i j] | FUnsub i j => [MUnsub i j] | FDrop => [MDrop] end.
    Definition hstep (s : X * fan) (o : fop E) : option (X * fan) :=
      match o with
      | FEv e => if f_gone (snd s) then Some s
                 else let (x, ms) := plan (fst s) (mdisp O (f_out (snd s))) e in
                      match fexec_all (snd s) ms with Some f => Some (x, f) | None => None end
      | _ => match fexec_all (snd s) (ext o) with Some f => Some (fst s, f) | None => None end
      end.
    Fixpoint hrun (s : X * fan) (h : list (fop E)) : option (X * fan) :=
      match h with
      | [] => Some s
      | o :: r => match hstep s o with Some s' => hrun s' r | None => None end
      end.
  End Run.
End Fan.
Arguments MNew {V} i.
Arguments MEmit {V} i e.
Arguments MOut {V} e.
Arguments MLost {V} i.
Arguments MSub {V} i j.
Arguments MUnsub {V} i j.
Arguments MDrop {V}.

Definition up {V} (e : ev V) : ev nat := match e with Next _ => Done | Err x => Err x | Done => Done end.

(** ** window *)
Section Window.
  Context {V : Type} (n : nat).
  Record wst := WS { w_num : nat; w_open : bool; w_cnt : nat }.    (* windows made; m_subject_data; m_items_in_current_window *)
  (** window.hpp:53-75 on_next, 77-89 on_error and on_completed; n = m_window_size >= 1, 47 *)
  Definition w_plan (x : wst) (_ : bool) (e : ev V) : wst * list (mop (V := V)) :=
    match e with
    | Next v =>
        let x1 := if w_cnt x =? n then WS (S (w_num x)) true 0 else x in
        let i := w_num x1 - 1 in
        (if S (w_cnt x1) =? n then WS (w_num x1) false (S (w_cnt x1)) else WS (w_num x1) (w_open x1) (S (w_cnt x1)),
         (if w_cnt x =? n then [MNew (w_num x)] else []) ++ [MEmit i e] ++
         (if S (w_cnt x1) =? n then [MEmit i Done; MLost i] else []))
    | _ => (x, (if w_open x then [MEmit (w_num x - 1) e] else []) ++ [MOut (up e)])
    end.
  Definition w_init : wst := WS 0 false n.
End Window.

(** ** group_by *)
Section Group.
  Context {A V : Type} (key : A -> exn + nat) (elem : A -> exn + V).
  (** The state is the list of keys of key_to_observer.  Simplifications: keys are numbers
      (what the comparator cannot tell apart is one key); on_error and on_completed go
      through the groups in order of creation; a group's subject is disposed only after
      termination or release, so the check group_by.hpp:99 is left out. *)
  Definition g_term (keys : list nat) (e : ev V) : list (mop (V := V)) := map (fun k => MEmit k e) keys ++ [MOut (up e)].
  (** group_by.hpp:94-117, deduce_observer 120-137; a throwing selector: observer.hpp:84-95 *)
  Definition g_plan (keys : list nat) (dead : bool) (e : ev A) : list nat * list (mop (V := V)) :=
    match e with
    | Next a =>
        match key a with
        | inl x => (keys, g_term keys (Err x))
        | inr k =>
            let known := existsb (Nat.eqb k) keys in
            if negb known && dead then (keys, [])
            else let keys1 := if known then keys else keys ++ [k] in
                 (keys1, (if known then [] else [MNew k]) ++
                         match elem a with inl x => g_term keys1 (Err x) | inr v => [MEmit k (Next v)] end)
        end
    | Err x => (keys, g_term keys (Err x))
    | Done => (keys, g_term keys Done)
    end.
End Group.

(** ** window_toggle *)
Section Toggle.
  Context {V : Type}.
  Record tst := TS { t_num : nat; t_list : list nat }.     (* windows made; state_t::observers *)
  Definition t_term (x : tst) (e : ev V) : list (mop (V := V)) := map (fun k => MEmit k e) (t_list x) ++ [MOut (up e)].
  (** Source: window_toggle.hpp:158-179; openings: 119-138 with on_new_subject 59-65; closings:
      85-110.  Simplifications: calls do not overlap (races: see below); the openings
      observe the grammar; a closing observer is disposed (is_disposed(), 109) exactly when
      its window has been taken out of the list or everything is released; a closing
      observable that emits while being subscribed is one that emits right afterwards. *)
  Definition t_plan (x : tst) (_ : bool) (e : tev V) : tst * list (mop (V := V)) :=
    match e with
    | TSrc (Next v) => (x, map (fun k => MEmit k (Next v)) (t_list x))
    | TSrc (Err y) => (x, t_term x (Err y))
    | TSrc Done => (x, t_term x Done)
    | TOpen (Next _) => (TS (S (t_num x)) (t_list x ++ [t_num x]), [MNew (t_num x)])
    | TOpen (Err y) => (x, t_term x (Err y))
    | TOpen Done => (x, [])
    | TClose i c =>
        if existsb (Nat.eqb i) (t_list x) then
          match c with
          | Err y => (x, t_term x (Err y))
          | _ => (TS (t_num x) (filter (fun k => negb (k =? i)) (t_list x)), [MEmit i Done; MLost i])
          end
        else (x, [])
    end.
  Definition t_init : tst := TS 0 [].
End Toggle.
