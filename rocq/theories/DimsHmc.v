(** C52 for hmc: every point, those of the numerical gradient included, has the dimension of the problem. *)
From Coq Require Import Floats.
From Verif Require Import Base Num NumF Env Common DE Sample Hoare EvalRules Gen Steps Runs Inst
  Laws Safe Feas DimCma Dims Demo ExPop ExSamp.
Open Scope nat_scope.

Section DimHmc.
  Context {N : Num} {E : Env N} {HO : OrdLaws num_arith}.
  Context (HE : EnvOK).
  Notation nmat := (@matrix (@num_arith N)).
  Variable d : nat.
  Context (Pc : nmat -> CbState -> Prop).

  Lemma upd_len i (v : T) (x : vec) : Len d x -> Len d (upd i v x).
  Proof. unfold Len. intro H. rewrite upd_length. exact H. Qed.
  Lemma safe_count nf x : Len d x -> safe (Len d) Pc (count_fun nf x) (fun _ => True).
  Proof.
    intro H. unfold count_fun. eapply safe_bind; [apply (safe_call_fun _ _ _ (fun _ => True)); [exact H|auto]|].
    intros. apply safe_ret. exact I.
  Qed.
  Lemma safe_jac jac h nf q : Len d q -> safe (Len d) Pc (hmc_jac jac h nf q) (fun r => Len d (fst r)).
  Proof.
    intro Hq.
    assert (H : safe (Len d) Pc (numerical_gradient h nf q) (fun r => Len d (fst r))).
    { unfold numerical_gradient.
      assert (HL : forall l x1 x2 g nf0, Len d x1 -> Len d x2 ->
        safe (Len d) Pc (foldM (ng_one h) (x1, x2, g, nf0) l)
          (fun r => length (snd (fst r)) = length g + length l)).
      { induction l as [|i l IH]; intros x1 x2 g nf0 H1 H2; cbn [foldM length].
        - apply safe_ret. cbn. lia.
        - eapply safe_bind with (R := fun r => Len d (fst (fst (fst r))) /\ Len d (snd (fst (fst r))) /\
            length (snd (fst r)) = length g + 1).
          + unfold ng_one.
            eapply safe_bind; [apply safe_count, upd_len, H2|]. intros [f2 n2] _.
            eapply safe_bind; [apply safe_count, upd_len, H1|]. intros [f1 n1'] _.
            apply safe_ret. cbn [fst snd]. rewrite app_length.
            split; [apply upd_len, upd_len, H1|]. split; [apply upd_len, upd_len, H2|reflexivity].
          + intros [[[y1 y2] g1] nf1] (G1 & G2 & G3). cbn [fst snd] in *.
            eapply safe_conseq; [apply IH; assumption|]. intros r Hr. cbv beta in Hr. lia. }
      eapply safe_bind; [apply HL; exact Hq|]. intros [[[y1 y2] g1] nf1] Hg. cbn [fst snd] in Hg.
      apply safe_ret. unfold Len in *. cbn [fst]. rewrite map_length, Hg, seq_length. exact Hq. }
    unfold hmc_jac. destruct jac; try exact H. apply safe_raise.
  Qed.

  Variables (P : HMCParams).
  Hypotheses (HP : hm_d P = d) (Hst : Len d (hm_step P)).
  Lemma drift_len q p : Len d q -> Len d p -> Len d (drift (hm_step P) q p).
  Proof. unfold Len, drift, vadd, vmul in *. rewrite !map2_length. vlia. Qed.
  Lemma kick_len p g : Len d p -> Len d g -> Len d (kick (hm_step P) p g).
  Proof. unfold Len, kick, vsub, vmul in *. rewrite !map2_length. vlia. Qed.
  Lemma half_kick_len p g : Len d p -> Len d g -> Len d (half_kick (hm_step P) p g).
  Proof. unfold Len, half_kick, vsub in *. rewrite !map2_length. vlia. Qed.

  Lemma safe_leap_loop k : forall q p nf, Len d q -> Len d p ->
    safe (Len d) Pc (leap_loop (hmc_jac (hm_jac P) (hm_fd P)) (hm_step P) k q p nf)
      (fun r => Len d (fst (fst r)) /\ Len d (snd (fst r))).
  Proof.
    induction k as [|k IH]; intros q p nf Hq Hp; cbn [leap_loop]; [apply safe_ret; split; assumption|].
    eapply safe_bind; [apply safe_jac, Hq|]. intros [g nf1] Hg. cbn [fst] in Hg.
    apply IH; [apply drift_len; [exact Hq|]|]; apply kick_len; assumption.
  Qed.
  Lemma safe_leapfrog q p nf : Len d q -> Len d p ->
    safe (Len d) Pc (leapfrog (hmc_jac (hm_jac P) (hm_fd P)) (hm_step P) (hm_nleap P) q p nf)
      (fun r => Len d (fst (fst r))).
  Proof.
    intros Hq Hp. unfold leapfrog. eapply safe_bind; [apply safe_jac, Hq|]. intros [g nf1] Hg. cbn [fst] in Hg.
    cbv zeta. assert (Hk := half_kick_len p g Hp Hg).
    eapply safe_bind; [apply safe_leap_loop; [apply drift_len; assumption|exact Hk]|].
    intros [[q1 p1] nf2] [H1 H2]. cbn [fst snd] in *.
    eapply safe_bind; [apply safe_jac, H1|]. intros [g2 nf3] _. apply safe_ret. exact H1.
  Qed.

  Definition HLen (c : Chain) : Prop := Forall (Len d) (ch_x c) /\ 0 < length (ch_x c).
  Lemma safe_hmc_move cn : HLen (fst cn) -> safe (Len d) Pc (hmc_move P cn) (fun r => HLen (fst r)).
  Proof.
    destruct cn as [c nf]. intro Hc. cbn [fst] in Hc. unfold hmc_move. cbv zeta.
    set (MP := mkMCParams d 0 [] [] (hm_step P) 0 (hm_args P)).
    assert (Hq0 : Len d (ch_last_x c)) by exact (ch_last_len MP Hst c Hc).
    assert (HA : forall y f, Len d y -> HLen (ch_accept c y f)) by (intros y f Hy; exact (accept_len MP Hst c y f Hc Hy)).
    assert (HR : HLen (ch_reject c)) by exact (reject_len MP Hst c Hc).
    rewrite HP. eapply safe_bind; [apply (safe_randn_vec (Len d) Pc)|]. intros p0 Hp0. cbv beta in Hp0.
    eapply safe_bind; [apply safe_leapfrog; [exact Hq0|exact Hp0]|]. intros [[q p] nf1] Hq. cbn [fst] in Hq.
    eapply safe_bind with (R := fun r => HLen (fst r)).
    - destruct (in_search_space _ _ _ _); [|apply safe_ret, HR].
      eapply safe_bind; [apply safe_count, Hq0|]. intros [U0 k0] _.
      eapply safe_bind; [apply safe_count, Hq|]. intros [U k1] _.
      eapply safe_bind; [apply (safe_rand _ _ HE)|]. intros u _. apply safe_ret. cbn [fst].
      destruct (metropolis _ _); [apply HA, Hq|exact HR].
    - intros [c' nf'] Hc'. eapply safe_bind; [apply (safe_s_cb MP Pc _ _ (fun _ => True)); exact I|]. intros _ _.
      apply safe_ret, Hc'.
  Qed.
  Lemma safe_hmc_loop k : forall cn, HLen (fst cn) -> safe (Len d) Pc (hmc_loop P k cn) (fun r => HLen (fst r)).
  Proof.
    induction k as [|k IH]; intros cn H; cbn [hmc_loop]; [apply safe_ret, H|].
    eapply safe_bind; [apply safe_hmc_move, H|]. intros cn' H'. apply IH, H'.
  Qed.
End DimHmc.

Section Run.
  Context {N : Num} {E : Env N} {HO : OrdLaws num_arith}.
  Context (HE : EnvOK).
  Lemma safe_hmc_len A : let d := nd_len (s_bounds (hma A)) in
    safe (Len d) (CbLen d 0) (hmc_sample A) (fun _ => True).
  Proof.
    intros d. unfold hmc_sample. cbv zeta.
    eapply safe_bind with (R := fun lu => exists rows, s_bounds (hma A) = D2 2 rows /\ lu = (lows rows, ups rows) /\
      forall v, s_x0 (hma A) = Some (D1 v) -> Len d v).
    { unfold s_check_x0.
      do 2 (eapply safe_bind; [apply (safe_raise_if _ _ _ _ (fun _ => True)); auto|]; intros _ _).
      eapply safe_bind; [apply safe_unpack|]. intros lu (rows & Hb & ->).
      eapply safe_bind with (R := fun _ => forall v, s_x0 (hma A) = Some (D1 v) -> Len d v).
      - destruct (s_x0 (hma A)) as [[x|v|c m]|].
        + apply safe_raise.
        + apply safe_raise_if. intros H w Hw. injection Hw as <-. apply negb_false_iff, Nat.eqb_eq in H. exact H.
        + apply safe_raise_if. intros _ w Hw. discriminate.
        + apply safe_ret. discriminate.
      - intros _ Hx. apply safe_ret. exists rows. auto. }
    intros lu (rows & Hb & -> & Hx0).
    assert (Hd : d = length rows) by (unfold d; rewrite Hb; reflexivity).
    eapply safe_bind; [apply (safe_raise_if _ _ _ _ (fun _ => True)); auto|]; intros _ _.
    eapply safe_bind with (R := Len d).
    { unfold s_steps. cbv zeta. set (st := match s_stepsize (hma A) with D0 x => _ | y => y end).
      eapply safe_bind; [apply (safe_raise_if _ _ _ _ (fun _ => nd_len st = d))|].
      { intros H. apply negb_false_iff, Nat.eqb_eq in H. exact H. }
      intros ? Hs. cbv beta in Hs. destruct st as [x|v|c m]; try apply safe_raise.
      eapply safe_bind; [apply (safe_when _ _ _ _ (fun _ => True)); [intros _; apply safe_set_arg; exact I|exact I]|].
      intros _ _. apply safe_ret. unfold Len. rewrite map2_length, combine_length, lows_len, ups_len. cbn in Hs. vlia. }
    intros steps Hst.
    eapply safe_bind; [apply (safe_raise_if _ _ _ _ (fun _ => True)); auto|]; intros _ _.
    eapply safe_bind with (R := fun _ => True).
    { unfold s_seed_cb. eapply safe_bind; [apply (safe_seed _ _ _ (fun _ => True)); exact I|]. intros _ _.
      apply safe_raise_if; auto. }
    intros _ _. eapply safe_bind with (R := Len d).
    { unfold s_first. eapply safe_bind; [apply (safe_raise_if _ _ _ _ (fun _ => True)); auto|]; intros _ _.
      eapply safe_bind with (R := Len d).
      - destruct (s_x0 (hma A)) as [[x|v|c m]|]; try apply safe_raise.
        + apply safe_ret, Hx0; reflexivity.
        + eapply safe_conseq; [apply (safe_uniform_len HE)|]. intros v Hv. cbv beta in Hv.
          rewrite lows_len, ups_len in Hv. unfold Len. vlia.
      - intros x Hx. eapply safe_bind; [apply (safe_raise_if _ _ _ _ (fun _ => True)); auto|]; intros _ _.
        apply safe_ret, Hx. }
    intros x Hx. eapply safe_bind; [apply safe_count; exact Hx|]. intros [f nf] _.
    eapply safe_bind with (R := fun _ => True).
    { unfold s_first_cb. apply safe_when; [|exact I]. intros _. apply safe_call_scb; exact I. }
    intros _ _. set (P := mkHMCParams _ _ _ _ _ _ _ _).
    eapply safe_bind.
    { apply (safe_hmc_loop HE d (CbLen d 0) P eq_refl Hst). split; cbn; [repeat constructor; exact Hx|lia]. }
    intros [c nf'] _. eapply safe_bind; [apply (safe_np_argmin _ _)|]. intros; apply safe_ret; exact I.
  Qed.

  Theorem C52_hmc A w a0 r st' : exec (hmc_sample A) w a0 = (r, st') ->
    forall x, In x (points (tr st')) -> length x = nd_len (s_bounds (hma A)).
  Proof.
    intros Hx. destruct (safe_shaped _ _ _ _ _ _ _ _ (safe_hmc_len A) Hx) as [H _]. exact H.
  Qed.
End Run.

(** A chain of three samples: 37 evaluations. *)
Definition hm52 : @HMCArgs NDF :=
  @mkHMCArgs NDF (sargs bsq [0.5; 0.5]%float 3 0.125%float None true CbFun) 2 JacNone 0.03125%float.
Definition w52 := script [0.0625; 0.5; 0.25]%float [-0.5; -0.25; 0.125; 0.75]%float.
Lemma hmc_points f A w n : Nat.eqb (length (points (tr (snd (hmrun f A w None))))) n = true ->
  exists r st', hmrun f A w None = (r, st') /\ length (points (tr st')) = n /\
    forall x, In x (points (tr st')) -> length x = nd_len (s_bounds (hma A)).
Proof.
  intro H. apply Nat.eqb_eq in H. destruct (hmrun f A w None) as [r st'] eqn:E0. exists r, st'.
  split; [reflexivity|]. split; [exact H|].
  exact (@C52_hmc NDF (DemoEnv DF f) (DemoEnv_OK DF f) A w None r st' E0).
Qed.
Theorem C52_hmc_run : exists r st', hmrun f_sphere hm52 w52 None = (r, st') /\
  length (points (tr st')) = 37 /\ forall x, In x (points (tr st')) -> length x = nd_len (s_bounds (hma hm52)).
Proof. apply hmc_points. vm_compute. reflexivity. Qed.
