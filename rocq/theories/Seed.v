(** C44: with a seed the run does not depend on the state of the generator before the call. *)
From Verif Require Import Base Num Env Common DE CPSO NA Mat CMAES VDCMA Sample Hoare Disc.

Section Seed.
  Context {N : Num} {E : Env N}.

  (** Equal up to the state of the generator. *)
  Definition Req (s1 s2 : St) : Prop :=
    tr s1 = tr s2 /\ argbuf s1 = argbuf s2 /\ snd (rs s1) = snd (rs s2).

  (** Does not look at the generator. *)
  Definition sfree {A} (m : M A) : Prop :=
    forall s1 s2, Req s1 s2 -> fst (m s1) = fst (m s2) /\ Req (snd (m s1)) (snd (m s2)).
  (** Moreover erases the difference when it returns, or later. *)
  Definition sfix {A} (m : M A) : Prop :=
    forall s1 s2, Req s1 s2 ->
      fst (m s1) = fst (m s2) /\ Req (snd (m s1)) (snd (m s2)) /\
      (forall a, fst (m s1) = inl a -> snd (m s1) = snd (m s2)).

  Lemma Req_refl s : Req s s.
  Proof. repeat split. Qed.

  Lemma sfree_ret {A} (a : A) : sfree (ret a).
  Proof. intros s1 s2 H; split; auto. Qed.
  Lemma sfree_raise {A} e : sfree (@raise _ _ A e).
  Proof. intros s1 s2 H; split; auto. Qed.
  Lemma sfree_set_arg m : sfree (set_arg m).
  Proof. intros s1 s2 (H1 & H2 & H3); repeat split; auto. Qed.
  Lemma sfree_bind {A B} (m : M A) (k : A -> M B) :
    sfree m -> (forall a, sfree (k a)) -> sfree (bind m k).
  Proof.
    intros Hm Hk s1 s2 H. unfold bind. destruct (Hm s1 s2 H) as [H1 H2].
    destruct (m s1) as [[a|e] t1], (m s2) as [[b|f] t2]; cbn in *; try discriminate.
    - injection H1 as ->. apply Hk; exact H2.
    - injection H1 as ->. auto.
  Qed.
  Lemma sfix_bind_r {A B} (m : M A) (k : A -> M B) :
    sfree m -> (forall a, sfix (k a)) -> sfix (bind m k).
  Proof.
    intros Hm Hk s1 s2 H. unfold bind. destruct (Hm s1 s2 H) as [H1 H2].
    destruct (m s1) as [[a|e] t1], (m s2) as [[b|f] t2]; cbn in *; try discriminate.
    - injection H1 as ->. apply Hk; exact H2.
    - injection H1 as ->. repeat split; try apply H2. discriminate.
  Qed.
  Lemma sfix_bind_l {A B} (m : M A) (k : A -> M B) : sfix m -> sfix (bind m k).
  Proof.
    intros Hm s1 s2 H. unfold bind. destruct (Hm s1 s2 H) as (H1 & H2 & H3).
    destruct (m s1) as [[a|e] t1], (m s2) as [[b|f] t2]; cbn in *; try discriminate.
    - injection H1 as ->. rewrite (H3 b eq_refl). repeat split.
    - injection H1 as ->. repeat split; try apply H2. discriminate.
  Qed.
  Lemma sfix_seed z : sfix (seed (Some z)).
  Proof.
    intros s1 s2 (H1 & H2 & H3). cbn. rewrite H1, H2, H3. repeat split.
  Qed.
End Seed.

Ltac sf :=
  repeat first
    [ apply sfree_ret | apply sfree_raise | apply sfree_set_arg
    | apply sfree_bind; [|intro]
    | match goal with
      | |- sfree (let _ := _ in _) => cbn zeta
      | |- sfree (match ?x with _ => _ end) => destruct x
      end ].

Section C44.
  Context {N : Num} {E : Env N}.

  Definition any_seed (c : AnyCall) : option Z :=
    match c with
    | RunDE A => a_seed (dea A) | RunCPSO A => a_seed (pa A) | RunPSO A => a_seed (psa A)
    | RunNA A => a_seed (naa A) | RunCMAES A | RunVDCMA A => a_seed (caa A)
    | RunMCMC A => s_seed (mca A) | RunHMC A => s_seed (hma A)
    end.

  Lemma sfree_raise_if b e : sfree (raise_if b e).
  Proof. unfold raise_if. sf. Qed.
  Lemma sfree_orelse {A} (o : option A) e : sfree (orelse o e).
  Proof. unfold orelse. sf. Qed.
  Lemma sfree_check_pop a : sfree (check_pop a).
  Proof. unfold check_pop, raise_if. sf. Qed.
  Lemma sfree_check_updating a : sfree (check_updating a).
  Proof. unfold check_updating, raise_if. sf. Qed.
  Lemma sfree_s_check_x0 a : sfree (s_check_x0 a).
  Proof. unfold s_check_x0, raise_if, unpack_bounds. sf. Qed.
  Lemma sfree_s_steps a lo hi : sfree (s_steps a lo hi).
  Proof. unfold s_steps, raise_if, when. cbn zeta. sf. Qed.

  Ltac sx := repeat first
    [ apply sfix_bind_r; [first [apply sfree_raise_if | apply sfree_orelse | apply sfree_check_pop
         | apply sfree_check_updating | apply sfree_s_check_x0 | apply sfree_s_steps]|intro]
    | match goal with |- sfix (match ?x with _ => _ end) => destruct x end ].

  Lemma sfix_seed_and_cb a z : a_seed a = Some z -> sfix (seed_and_cb a).
  Proof. intros H; unfold seed_and_cb; rewrite H. apply sfix_bind_l, sfix_seed. Qed.
  Lemma sfix_s_seed_cb a z : s_seed a = Some z -> sfix (s_seed_cb a).
  Proof. intros H; unfold s_seed_cb; rewrite H. apply sfix_bind_l, sfix_seed. Qed.

  Lemma sfix_cma_check A z : a_seed (caa A) = Some z -> sfix (cma_check A).
  Proof. intros H. unfold cma_check. cbn zeta. sx. eapply sfix_seed_and_cb, H. Qed.

  Lemma sfix_de A z : a_seed (dea A) = Some z -> sfix (de_minimize A).
  Proof.
    intros H. unfold de_minimize. cbn zeta. sx. apply sfix_bind_l. eapply sfix_seed_and_cb, H.
  Qed.
  Lemma sfix_cpso A z : a_seed (pa A) = Some z -> sfix (cpso_minimize A).
  Proof.
    intros H. unfold cpso_minimize. cbn zeta. sx. apply sfix_bind_l. eapply sfix_seed_and_cb, H.
  Qed.
  Lemma sfix_na A z : a_seed (naa A) = Some z -> sfix (na_minimize A).
  Proof.
    intros H. unfold na_minimize. cbn zeta. sx. apply sfix_bind_l. eapply sfix_seed_and_cb, H.
  Qed.
  Lemma sfix_mcmc A z : s_seed (mca A) = Some z -> sfix (mcmc_sample A).
  Proof.
    intros H. unfold mcmc_sample, mcmc_fuel. cbn zeta. sx. apply sfix_bind_l.
    eapply sfix_s_seed_cb, H.
  Qed.
  Lemma sfix_hmc A z : s_seed (hma A) = Some z -> sfix (hmc_sample A).
  Proof.
    intros H. unfold hmc_sample. cbn zeta. sx. apply sfix_bind_l. eapply sfix_s_seed_cb, H.
  Qed.

  Lemma sfix_exec {A} (m : M A) g1 g2 u a0 :
    sfix m -> fst (exec m (g1, u) a0) = fst (exec m (g2, u) a0) /\
              tr (snd (exec m (g1, u) a0)) = tr (snd (exec m (g2, u) a0)) /\
              argbuf (snd (exec m (g1, u) a0)) = argbuf (snd (exec m (g2, u) a0)) /\
              snd (rs (snd (exec m (g1, u) a0))) = snd (rs (snd (exec m (g2, u) a0))).
  Proof.
    intros H. destruct (H (mkSt (g1, u) [] a0) (mkSt (g2, u) [] a0)) as (H1 & (H2 & H3 & H4) & _).
    - repeat split.
    - unfold exec. auto.
  Qed.

  (** Same arguments, same seed, same state [u] of the user's code: two generator states [g1], [g2]
      lead to the same result or exception, the same calls of user code in the same order with the
      same arguments, the same effect on the caller's array and on the user's state. *)
  Definition same_run {A} (m : M A) : Prop :=
    forall g1 g2 u a0, fst (exec m (g1, u) a0) = fst (exec m (g2, u) a0) /\
              tr (snd (exec m (g1, u) a0)) = tr (snd (exec m (g2, u) a0)) /\
              argbuf (snd (exec m (g1, u) a0)) = argbuf (snd (exec m (g2, u) a0)) /\
              snd (rs (snd (exec m (g1, u) a0))) = snd (rs (snd (exec m (g2, u) a0))).

  Theorem C44_seed_de A z : a_seed (dea A) = Some z -> same_run (de_minimize A).
  Proof. intros H g1 g2 u a0. eapply sfix_exec, sfix_de, H. Qed.
  Theorem C44_seed_cpso A z : a_seed (pa A) = Some z -> same_run (cpso_minimize A).
  Proof. intros H g1 g2 u a0. eapply sfix_exec, sfix_cpso, H. Qed.
  Theorem C44_seed_pso A z : a_seed (psa A) = Some z -> same_run (pso_minimize A).
  Proof. intros H g1 g2 u a0. eapply sfix_exec, sfix_cpso. exact H. Qed.
  Theorem C44_seed_na A z : a_seed (naa A) = Some z -> same_run (na_minimize A).
  Proof. intros H g1 g2 u a0. eapply sfix_exec, sfix_na, H. Qed.
  Theorem C44_seed_cmaes A z : a_seed (caa A) = Some z -> same_run (cmaes_minimize A).
  Proof.
    intros H g1 g2 u a0. apply sfix_exec. apply sfix_bind_l. eapply sfix_cma_check, H.
  Qed.
  Theorem C44_seed_vdcma A z : a_seed (caa A) = Some z -> same_run (vdcma_minimize A).
  Proof.
    intros H g1 g2 u a0. apply sfix_exec. apply sfix_bind_l. eapply sfix_cma_check, H.
  Qed.
  Theorem C44_seed_mcmc A z : s_seed (mca A) = Some z -> same_run (mcmc_sample A).
  Proof. intros H g1 g2 u a0. eapply sfix_exec, sfix_mcmc, H. Qed.
  Theorem C44_seed_hmc A z : s_seed (hma A) = Some z -> same_run (hmc_sample A).
  Proof. intros H g1 g2 u a0. eapply sfix_exec, sfix_hmc, H. Qed.
End C44.
