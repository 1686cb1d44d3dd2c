(** What operators that subscribe again and again have to do: retry, retry_when,
    source::concat (with repeat and start_with). *)
From Verif Require Import Base.

(** One attempt: what the observable that is subscribed to does.  Either it emits [now] during
    subscribe() and [later] from another thread (which may begin while subscribe() is still
    running), or subscribe() throws after it has emitted [now]. *)
Inductive attempt (E : Type) := Calls (now later : list E) | Throws (now : list E) (x : exn).
Arguments Calls {E} now later.
Arguments Throws {E} now x.

(** What the caller of subscribe() sees: attempt k is subscribed while the resources [held] of
    earlier ones are not released yet; subscribe() has returned. *)
Inductive slab := SSub (k : nat) (held : list nat) | SRet (k : nat).
(** Subscriptions one after the other, each after everything before it is released. *)
Definition one_by_one (tr : list slab) : Prop :=
  exists n, tr = flat_map (fun k => [SSub k []; SRet k]) (seq 0 n) \/ tr = flat_map (fun k => [SSub k []; SRet k]) (seq 0 n) ++ [SSub n []].

Section Spec.
  Context {V : Type}.

  (** ** retry *)
  (** Values up to the first terminal event, and that event. *)
  Fixpoint split_end (l : list (ev V)) : list (ev V) * option (ev V) :=
    match l with
    | [] => ([], None)
    | Next v :: r => (Next v :: fst (split_end r), snd (split_end r))
    | e :: _ => ([], Some e)
    end.
  (** [n]: number of retries left, None = no limit *)
  Fixpoint retry_out (n : option nat) (l : list (attempt (ev V))) : list (ev V) :=
    match l with
    | [] => []
    | Calls now later :: r =>
        let (vs, e) := split_end (now ++ later) in
        vs ++ match e with
              | Some (Err x) => match n with
                                | Some 0 => [Err x]
                                | Some (S m) => retry_out (Some m) r
                                | None => retry_out None r
                                end
              | Some e => [e]
              | None => []
              end
    | Throws now x :: _ =>
        let (vs, e) := split_end now in
        vs ++ match e with
              | Some (Err y) => match n with Some 0 => [Err y] | _ => [Err x] end
              | Some e => [e]
              | None => [Err x]
              end
    end.

  (** ** source::concat: one attempt per element of the container; the container has [len]
      elements (None: infinite) *)
  Fixpoint concat_out (len : option nat) (l : list (attempt (ev V))) : list (ev V) :=
    match len with
    | Some 0 => [Done]
    | _ =>
        match l with
        | [] => []
        | Calls now later :: r =>
            let (vs, e) := split_end (now ++ later) in
            vs ++ match e with
                  | Some Done => concat_out (match len with Some m => Some (pred m) | None => None end) r
                  | Some e => [e]
                  | None => []
                  end
        | Throws now x :: _ =>
            let (vs, e) := split_end now in
            vs ++ match e with Some (Err y) => [Err y] | _ => [Err x] end
        end
    end.

  (** ** retry_when: events of the source (inl), then, if it has failed, of the notifier (inr);
      [sel]: the selector's exception for an error *)
  Section When.
    Variable sel : exn -> option exn.
    Inductive verdict := VEnd (e : ev V) | VAgain | VNone.
    Fixpoint notified (l : list (ev V + ev unit)) : verdict :=
      match l with
      | [] => VNone
      | inr (Next _) :: _ => VAgain
      | inr (Err x) :: _ => VEnd (Err x)
      | inr Done :: _ => VEnd Done
      | inl _ :: r => notified r
      end.
    Fixpoint split_when (l : list (ev V + ev unit)) : list (ev V) * verdict :=
      match l with
      | [] => ([], VNone)
      | inl (Next v) :: r => (Next v :: fst (split_when r), snd (split_when r))
      | inl (Err x) :: r => match sel x with Some y => ([], VEnd (Err y)) | None => ([], notified r) end
      | inl Done :: _ => ([], VEnd Done)
      | inr _ :: r => split_when r
      end.
    Fixpoint when_out (l : list (attempt (ev V + ev unit))) : list (ev V) :=
      match l with
      | [] => []
      | Calls now later :: r =>
          let (vs, v) := split_when (now ++ later) in
          vs ++ match v with VEnd e => [e] | VAgain => when_out r | VNone => [] end
      | Throws now x :: _ =>
          let (vs, v) := split_when now in
          vs ++ match v with VEnd e => [e] | _ => [Err x] end
      end.
  End When.
End Spec.

(** on_error_resume_next: the source's events (inl) up to its error, then those of the
    observable chosen for that error (inr). *)
Section Resume.
  Context {V : Type} (sel : exn -> option exn).
  Fixpoint fallback (l : list (ev V + ev V)) : list (ev V) :=
    match l with
    | [] => []
    | inr e :: r => e :: fallback r
    | inl _ :: r => fallback r
    end.
  Fixpoint resume_out (l : list (ev V + ev V)) : list (ev V) :=
    match l with
    | [] => []
    | inl (Next v) :: r => Next v :: resume_out r
    | inl Done :: _ => [Done]
    | inl (Err x) :: r => match sel x with Some y => [Err y] | None => fallback r end
    | inr _ :: r => resume_out r
    end.
End Resume.
