From Verif Require Import Base ObserverSpec ReentrantModel ObserverProofs.

Section P.
  Context {V : Type}.
  Variable react : list (ev V) -> list (ev V).
  Hypothesis quiet : forall h t, is_term t = true -> react (h ++ [t]) = [].

  Definition rinv (s : rstate V) : Prop :=
    grammatical (r_log s) /\ (r_flag s = false -> exists vs, r_log s = map Next vs).

  Lemma r_call_inv : forall fuel s e s', rinv s -> r_call react fuel s e = Some s' -> rinv s'.
  Proof.
    induction fuel as [|k IH]; intros s e s' I; cbn; [discriminate|].
    destruct (r_flag s) eqn:F; [intros [= <-]; exact I|].
    destruct I as [G L]. destruct (L F) as [vs E].
    set (go := fix go (calls : list (ev V)) (s0 : rstate V) : option (rstate V) :=
            match calls with
            | [] => Some s0
            | c :: r => match r_call react k s0 c with Some s'0 => go r s'0 | None => None end
            end).
    assert (GO: forall calls s0 s1, rinv s0 -> go calls s0 = Some s1 -> rinv s1).
    { induction calls as [|c r IHc]; cbn; intros s0 s1 I0; [intros [= <-]; exact I0|].
      destruct (r_call react k s0 c) eqn:C; [|discriminate].
      intro H. apply (IHc r0); auto. exact (IH _ _ _ I0 C). }
    destruct e as [v|x|].
    - destruct (go (react (r_log s ++ [Next v])) {| r_flag := false; r_log := r_log s ++ [Next v] |}) eqn:GG; [|discriminate].
      intros [= <-]. refine (GO _ _ _ _ GG). rewrite E, map_snoc.
      split; cbn; eauto using gram_vals.
    - rewrite (quiet (r_log s) (Err x) eq_refl). cbn. intros [= <-]. rewrite E.
      split; cbn; [apply gram_err | discriminate].
    - rewrite (quiet (r_log s) Done eq_refl). cbn. intros [= <-]. rewrite E.
      split; cbn; [apply gram_done | discriminate].
  Qed.

  Lemma r_run_inv : forall fuel l s s', rinv s -> r_run react fuel s l = Some s' -> rinv s'.
  Proof.
    induction l as [|e r IH]; cbn; intros s s' I H; [injection H as <-; exact I|].
    destruct (r_call react fuel s e) eqn:C; [|discriminate].
    exact (IH _ _ (r_call_inv _ _ _ _ I C) H).
  Qed.

  Lemma reentrant_grammar : forall fuel l s',
    r_run react fuel (RState false []) l = Some s' -> grammatical (r_log s').
  Proof.
    intros fuel l s' H. refine (proj1 (r_run_inv fuel l _ s' _ H)).
    split; cbn; [exact (gram_vals []) | intros _; now exists []].
  Qed.
End P.
