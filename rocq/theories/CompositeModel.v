(** composite_disposable_impl as a small-step machine, one shared access per step,
    sequentially consistent.
    /repo/src/rpp/rpp/disposables/composite_disposable.hpp:29-166 and the container
    operations of /repo/src/rpp/rpp/disposables/details/container.hpp:20-58, 101-145. *)
From Verif Require Import Base CompositeSpec.

(** composite_disposable.hpp:157-162. *)
Inductive cstate := CNone | CEdit | CDisposed.

(** m_current_state, m_disposables (165, 164), the disposed flags of the children
    (base_disposable.hpp:36-41) and a counter numbering the calls. *)
Record shared := Shared { sh_st : cstate; sh_kids : list nat; sh_gone : list nat; sh_next : nat }.

(** Program points. [IOp] is a call not yet started. *)
Inductive item :=
| IOp (o : op)
| IAddChk (k d : nat)            (* 67 *)
| IAddCas (k d : nat)            (* 74 *)
| IAddPush (k d : nat)           (* 78 *)
| IAddUnlock (k d : nat) (ok : bool) (* 82 (exception) / 86 *)
| IAddLate (k d : nat)           (* 92 *)
| IAddRet (k d : nat)            (* 93 *)
| IRemCas (k d : nat)            (* 104 *)
| IRemDo (k d : nat)             (* 108 *)
| IRemUnlock (k d : nat)         (* 116 *)
| IClrCas (k : nat)              (* 131 *)
| IClrLoop (k i : nat)           (* 135, container.hpp:45-48 / 134-137 *)
| IClrClear (k : nat)            (* 136 *)
| IClrUnlock (k : nat)           (* 144 *)
| IDspCas (k : nat)              (* 49 *)
| IDspLoop (k i : nat)           (* 53 *)
| IDspClear (k : nat).           (* 54 *)

Definition memb (d : nat) (l : list nat) : bool := existsb (Nat.eqb d) l.

Section Model.
  (** [acts d]: what the disposal action of child d does to this composite.
      [cap]: capacity of the container (None: dynamic). *)
  Variable acts : nat -> list op.
  Variable cap : option nat.

  (** d.dispose(): base_disposable.hpp:36-41. Returns the follow-up work and whether
      the child was disposed by this call. *)
  Definition kill (s : shared) (d : nat) : shared * list item * bool :=
    if memb d (sh_gone s) then (s, [], false)
    else (Shared (sh_st s) (sh_kids s) (d :: sh_gone s) (sh_next s), map IOp (acts d), true).

  Definition set_st (s : shared) (c : cstate) := Shared c (sh_kids s) (sh_gone s) (sh_next s).
  Definition set_kids (s : shared) (l : list nat) := Shared (sh_st s) l (sh_gone s) (sh_next s).

  (** First program point of a call. *)
  Definition start (k : nat) (o : op) : list item :=
    match o with
    | OAdd d => [IAddChk k d]
    | ORemove d => [IRemCas k d]
    | OClear => [IClrCas k]
    | ODispose => [IDspCas k]
    | OKill _ => []
    end.

  (** One step of the thread whose next program point is [it]. *)
  Definition istep (s : shared) (it : item) : shared * list item * list label :=
    match it with
    | IOp (OKill d) =>
        let '(s', its, fresh) := kill s d in
        (s', its, if fresh then [LUserKill d] else [])
    | IOp o =>
        (Shared (sh_st s) (sh_kids s) (sh_gone s) (S (sh_next s)),
         start (sh_next s) o, [LInv (sh_next s) o])
    | IAddChk k d =>
        if memb d (sh_gone s) || (d =? self) then (s, [], [LRet k (OAdd d) true])
        else (s, [IAddCas k d], [])
    | IAddCas k d =>
        match sh_st s with
        | CNone => (set_st s CEdit, [IAddPush k d], [])
        | CEdit => (s, [it], [])
        | CDisposed => (s, [IAddLate k d], [])
        end
    | IAddPush k d =>
        if room cap (sh_kids s) then (set_kids s (sh_kids s ++ [d]), [IAddUnlock k d true], [])
        else (s, [IAddUnlock k d false], [])
    | IAddUnlock k d ok => (set_st s CNone, [], [LRet k (OAdd d) ok])
    | IAddLate k d =>
        let '(s', its, fresh) := kill s d in
        (s', its ++ [IAddRet k d], if fresh then [LKill k d] else [])
    | IAddRet k d => (s, [], [LRet k (OAdd d) true])
    | IRemCas k d =>
        match sh_st s with
        | CNone => (set_st s CEdit, [IRemDo k d], [])
        | CEdit => (s, [it], [])
        | CDisposed => (s, [], [LRet k (ORemove d) true])
        end
    | IRemDo k d =>
        (set_kids s (filter (fun x => negb (x =? d)) (sh_kids s)), [IRemUnlock k d], [])
    | IRemUnlock k d => (set_st s CNone, [], [LRet k (ORemove d) true])
    | IClrCas k =>
        match sh_st s with
        | CNone => (set_st s CEdit, [IClrLoop k 0], [])
        | CEdit => (s, [it], [])
        | CDisposed => (s, [], [LRet k OClear true])
        end
    | IClrLoop k i =>
        match nth_error (sh_kids s) i with
        | Some d => let '(s', its, fresh) := kill s d in
                    (s', its ++ [IClrLoop k (S i)], if fresh then [LKill k d] else [])
        | None => (s, [IClrClear k], [])
        end
    | IClrClear k => (set_kids s [], [IClrUnlock k], [])
    | IClrUnlock k => (set_st s CNone, [], [LRet k OClear true])
    | IDspCas k =>
        match sh_st s with
        | CNone => (set_st s CDisposed, [IDspLoop k 0], [])
        | CEdit => (s, [it], [])
        | CDisposed => (s, [], [LRet k ODispose true])
        end
    | IDspLoop k i =>
        match nth_error (sh_kids s) i with
        | Some d => let '(s', its, fresh) := kill s d in
                    (s', its ++ [IDspLoop k (S i)], if fresh then [LKill k d] else [])
        | None => (s, [IDspClear k], [])
        end
    | IDspClear k => (set_kids s [], [], [LRet k ODispose true])
    end.

  Definition config := (shared * list (list item))%type.

  (** Any thread may make the next step. *)
  Inductive cstep : config -> list label -> config -> Prop :=
  | CStep : forall s ts1 it rest ts2 s' its ls,
      istep s it = (s', its, ls) ->
      cstep (s, ts1 ++ (it :: rest) :: ts2) ls (s', ts1 ++ (its ++ rest) :: ts2).

  Inductive exec : config -> list label -> config -> Prop :=
  | ENil : forall c, exec c [] c
  | ESnoc : forall c tr c1 ls c2, exec c tr c1 -> cstep c1 ls c2 -> exec c (tr ++ ls) c2.

  (** Every thread starts with an arbitrary program. *)
  Definition c_init (progs : list (list op)) : config :=
    (Shared CNone [] [] 0, map (map IOp) progs).

  Definition finished (c : config) : Prop := forall t, In t (snd c) -> t = [].
End Model.
