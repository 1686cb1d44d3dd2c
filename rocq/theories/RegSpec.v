(** group_by and window with their parts merged again (C84): what the subscriber sees.
    The same chain of operators is put on every part (flat_map with that chain). *)
From Verif Require Import Base ChainSpec TreeSpec.
Open Scope nat_scope.

Section Parts.
  Context {A C : Type} (c : chain A C).

  (** What the chain of one part has passed on, and what one more event adds. *)
  Definition shown (l : list (ev A)) : list (ev C) := heard (chain_spec c l).
  Definition more (l : list (ev A)) (e : ev A) : list (ev C) := skipn (length (shown l)) (shown (l ++ [e])).
  (** The end of a part is not shown; an error is. *)
  Definition open_end (l : list (ev C)) : list (ev C) := filter (fun e => match e with Done => false | _ => true end) l.

  (** ** group_by *)
  Variable key : A -> nat.
  Definition of_key (k : nat) (l : list A) : list A := filter (fun v => key v =? k) l.
  Definition has_key (k : nat) (l : list A) : bool := existsb (fun v => key v =? k) l.
  Fixpoint regrouped (past vs : list A) : list (ev C) :=
    match vs with
    | [] => []
    | v :: r => (if has_key (key v) past then [] else open_end (shown [])) ++
                open_end (more (map Next (of_key (key v) past)) (Next v)) ++ regrouped (past ++ [v]) r
    end.
  (** At the end every group ends, in the order of the keys. *)
  Definition keys_of (vs : list A) : list nat := filter (fun k => has_key k vs) (seq 0 (S (list_max (map key vs)))).
  Definition regrouped_end (vs : list A) (t : list (ev A)) : list (ev C) :=
    match t with
    | [] => []
    | e :: _ => flat_map (fun k => open_end (more (map Next (of_key k vs)) e)) (keys_of vs) ++ [match e with Err x => Err x | _ => Done end]
    end.

  (** ** window(n) *)
  Variable n : nat.
  (** The values of the window that is open after [past]. *)
  Definition current (past : list A) : list A := skipn (length past - length past mod n) past.
  Fixpoint rewindowed (past vs : list A) : list (ev C) :=
    match vs with
    | [] => []
    | v :: r => (if length past mod n =? 0 then open_end (shown []) else []) ++
                open_end (more (map Next (current past)) (Next v)) ++
                (if S (length past) mod n =? 0 then open_end (more (map Next (current past ++ [v])) Done) else []) ++
                rewindowed (past ++ [v]) r
    end.
  Definition rewindowed_end (vs : list A) (t : list (ev A)) : list (ev C) :=
    match t with
    | [] => []
    | e :: _ => (if length vs mod n =? 0 then [] else open_end (more (map Next (current vs)) e)) ++ [match e with Err x => Err x | _ => Done end]
    end.
End Parts.
