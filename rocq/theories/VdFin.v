(** C54 for the runs of vdcma (exact arithmetic): while the mean moves, all points are finite. *)
From Coq Require Import Reals Lra Psatz Permutation.
From Verif Require Import Base Num NumR NumE Env Common DE Mat CMAES VDCMA Weights Hoare EvalRules Inst Laws Safe Feas FeasPso DimCma
  VdReal Visit VdRun Cov CmReal CmRun.
Open Scope R_scope.

(** ** A loop whose states satisfy a condition [Q] in this run *)
Section DriveVis.
  Context {N : Num} {E : Env N}.
  Context (Pe : @vec (@num_arith N) -> Prop) (Pc : @matrix (@num_arith N) -> @CbState (@num_arith N) -> Prop).
  Lemma bind_at {A B} (m : M A) (k : A -> M B) w : bind m k w = match m w with (inl a, w') => k a w' | (inr e, w') => (inr e, w') end.
  Proof. reflexivity. Qed.
  Lemma safe_drive_vis {S} (d : Drv S) (Inv Post Q : S -> Prop) cb :
    (forall it s, Inv s -> safe Pe Pc (d_step d it s) (fun r => Post (fst r))) ->
    (forall it s, Post s -> Q s -> safe Pe Pc (d_post d it s) Inv) ->
    (forall it s, Post s -> cb = true -> Pc (d_pop d s) (cb_state d it s)) ->
    forall fuel it s w, Inv s -> (forall j t, visited d cb (fun _ => True) it s w j t -> Q t) ->
    exists evs, tr (snd (drive d cb fuel it s w)) = tr w ++ evs /\ Forall (shown Pe Pc) evs /\
      (forall r, fst (drive d cb fuel it s w) = inl r -> exists t, Post t /\ r_x r = d_x d t /\ r_fun r = d_fun d t).
  Proof.
    intros Hs Hp Hc. induction fuel as [|k IH]; intros it s w HI HQ; cbn [drive].
    { exists []. cbn. rewrite app_nil_r. split; [reflexivity|]. split; [constructor|discriminate]. }
    destruct (Hs (it + 1)%Z s HI w) as (e1 & T1 & F1 & G1). rewrite bind_at.
    destruct (d_step d (it + 1)%Z s w) as [[[s1 st]|e] w1] eqn:E1; cbn [fst snd] in *.
    2: { exists e1. split; [exact T1|]. split; [exact F1|discriminate]. }
    pose proof (G1 _ eq_refl) as HP1. cbn [fst] in HP1.
    assert (HC : safe Pe Pc (when cb (call_cb (d_pop d s1) (cb_state d (it + 1) s1))) (fun _ => True)).
    { apply safe_when; [|exact I]. intros Hb. apply safe_call_cb; [apply Hc; assumption|exact I]. }
    destruct (HC w1) as (e2 & T2 & F2 & _). rewrite bind_at.
    destruct (when cb (call_cb (d_pop d s1) (cb_state d (it + 1) s1)) w1) as [[[]|e] w2] eqn:E2; cbn [fst snd] in *.
    2: { exists (e1 ++ e2). rewrite T2, T1, app_assoc. split; [reflexivity|]. split; [apply Forall_app; auto|discriminate]. }
    destruct st as [c|].
    - unfold result. rewrite bind_at. exists (e1 ++ e2). destruct (message c) as [msg|]; cbn; rewrite T2, T1, app_assoc;
        (split; [reflexivity|]); (split; [apply Forall_app; auto|]); [|discriminate].
      intros r Hr. injection Hr as <-. cbn. exists s1. auto.
    - assert (HQ1 : Q s1) by (apply (HQ (it + 1)%Z); eapply vis_here; exact E1).
      destruct (Hp (it + 1)%Z s1 HP1 HQ1 w2) as (e3 & T3 & F3 & G3). rewrite bind_at.
      destruct (d_post d (it + 1)%Z s1 w2) as [[s2|e] w3] eqn:E3; cbn [fst snd] in *.
      2: { exists (e1 ++ e2 ++ e3). rewrite T3, T2, T1, !app_assoc. split; [reflexivity|]. split; [rewrite !Forall_app; auto|discriminate]. }
      destruct (IH (it + 1)%Z s2 w3 (G3 _ eq_refl)) as (e4 & T4 & F4 & G4).
      { intros j t HV. apply (HQ j t). eapply vis_next; [|exact I|exact E3|exact HV]. unfold iterate, bind. rewrite E1, E2. reflexivity. }
      exists (e1 ++ e2 ++ e3 ++ e4). rewrite T4, T3, T2, T1, !app_assoc. split; [reflexivity|].
      split; [rewrite !Forall_app; auto|exact G4].
  Qed.
End DriveVis.

Lemma exp_fin (x : er) : isfin x -> posf (er_exp x).
Proof. destruct x; try contradiction. intros _. cbn. apply exp_pos. Qed.

Section Run.
  Context {E : Env ENum} (HE : EnvOK) (HN : forall g, isfin (fst (e_randn g))).
  Variable d : nat.
  Variable Pc : list (list er) -> @CbState EArith -> Prop.
  Notation Fp := (FinPt d).
  Notation sf := (safe (N := ENum) Fp Pc).

  (** the parameters of a run *)
  Record VPar (P : @CMAParams ENum) : Prop := {
    vp_d : cm_d P = d; vp_d1 : (1 <= d)%nat; vp_mu : (1 <= cm_mu P <= cm_p P)%nat;
    vp_w : cm_w P = @cma_weights EArith (cm_mu P); vp_m : cm_mueff P = @cma_mueff EArith (cm_w P);
    vp_xm : Fp (cm_xm P); vp_xstd : Fp (cm_xstd P); vp_mode : ModeKeeps Fp (cm_mode P) }.

  Definition VI (P : @CMAParams ENum) (s : @VDS ENum) : Prop := VInv P s /\ posf (vs_sigma s).
  Record VP (P : @CMAParams ENum) (s : @VDS ENum) : Prop := {
    vq_post : VPost P s; vq_sg : posf (vs_sigma s);
    vq_valid : Forall Fp (vs_valid s); vq_p : length (vs_valid s) = cm_p P; vq_fit : length (vs_fit s) = cm_p P;
    vq_index : vs_index s = e_argsort (vs_fit s) }.

  Lemma vp_fins P : VPar P -> fins (cm_w P).
  Proof. intros HP. rewrite (vp_w _ HP), cma_weights_E by apply (vp_mu _ HP). apply fin_isfin. Qed.
  Lemma vp_mueff P : VPar P -> exists m, cm_mueff P = Fin m /\ 1 <= m.
  Proof.
    intros HP. exists (@cma_mueff RArith (@cma_weights RArith (cm_mu P))). rewrite (vp_m _ HP), (vp_w _ HP).
    split; [apply cma_mueff_E, (vp_mu _ HP)|apply (C27_mueff _ (proj1 (vp_mu _ HP)))].
  Qed.
  Lemma post_vi P s : VP P s -> Moved s -> VI P s.
  Proof. intros H HM. split; [apply post_inv; [apply (vq_post _ _ H)|exact HM]|apply (vq_sg _ _ H)]. Qed.

  Lemma vun_fin P x : VPar P -> Fp x -> Fp (cma_un P x).
  Proof.
    intros HP [Lx Hx]. destruct (vp_xm _ HP) as [L1 F1]. destruct (vp_xstd _ HP) as [L2 F2]. unfold cma_un, unstandardize.
    change (@num_arith ENum) with EArith. split.
    - apply map2_len; [apply map2_len; assumption|exact L1].
    - apply fins_add; [apply fins_mul; assumption|exact F1].
  Qed.
  Lemma vun_fins P X : VPar P -> Forall Fp X -> Forall Fp (map (cma_un P) X).
  Proof.
    intros HP HX. apply Forall_forall. intros y Hy. apply in_map_iff in Hy. destruct Hy as (x & <- & Hx).
    rewrite Forall_forall in HX. apply vun_fin; [exact HP|apply HX, Hx].
  Qed.
  Lemma vd_eval P X : VPar P -> Forall Fp X -> sf (cma_eval P X) (fun f : evec => length f = length X).
  Proof.
    intros HP HX. unfold cma_eval. eapply safe_bind.
    - apply (safe_eval_pop (N := ENum) Fp Pc Fp _ _ (vp_mode _ HP)); [auto|]. apply vun_fins; assumption.
    - intros [x f] (_ & _ & H & _). apply safe_ret. rewrite map_length in H. exact H.
  Qed.
  Lemma clip_fins (arx : list (list er)) : Forall Fp arx -> Forall Fp (map (map (@clip1 EArith)) arx).
  Proof.
    intros HX. apply Forall_forall. intros y Hy. apply in_map_iff in Hy. destruct Hy as (x & <- & Hx).
    rewrite Forall_forall in HX. destruct (HX x Hx) as [L F]. split; [rewrite map_length; exact L|]. apply fins_map; [apply clip1_isfin|exact F].
  Qed.
  Lemma vd_fitness P arx xmean xold sigma diagC it ps : VPar P -> Forall Fp arx ->
    sf (cma_fitness P arx xmean xold sigma diagC it ps)
      (fun r : evec * @matrix EArith * @PenState ENum => length (fst (fst r)) = length arx /\ length (snd (fst r)) = length arx /\ Forall Fp (snd (fst r))).
  Proof.
    intros HP HX. unfold cma_fitness. destruct (cm_pen P).
    - pose proof (clip_fins arx HX) as HV.
      unfold penalize. eapply safe_bind; [apply vd_eval; [exact HP|exact HV]|]. intros fit Hf. cbv beta in Hf.
      eapply safe_bind with (R := fun _ => True).
      { destruct (neqb _ _).
        - destruct (filter _ _); [apply safe_raise|apply safe_ret; exact I].
        - destruct (negb _); apply safe_ret; exact I. }
      intros [[delta hist] valid] _. cbv zeta.
      destruct (if _ && _ then _ else _) as [w ini].
      apply safe_ret. cbn [fst snd]. split; [|split; [apply map_length|exact HV]].
      rewrite map3_length, !map_length. rewrite map_length in Hf. elia.
    - eapply safe_bind; [apply vd_eval; [exact HP|exact HX]|]. intros f Hf.
      apply safe_ret. cbn. auto.
  Qed.

  (** the sampled steps *)
  Lemma vd_sample_len P s : VInv P s -> gives (vd_sample P s) (fun ary : @matrix (@num_arith ENum) => length ary = cm_p P /\ Forall (fun y => length y = cm_d P) ary).
  Proof.
    intros ((dv & vv & Hdv & Ldv & Pdv & Hvv & Lvv & Pvv & Hq & Hnv & Hvn & Hvnn) & _ & HI). unfold vd_sample.
    eapply gives_bind; [apply gives_replicateM, randn_vec_fin, HN|]. intros arz [La Ha]. cbv zeta. change (@num_arith ENum) with EArith.
    match goal with |- context [map ?g arz] => set (f := g) end.
    assert (Hary : Forall (fun y : list er => length y = cm_d P) (map f arz)).
    { apply Forall_forall. intros y Hy. apply in_map_iff in Hy. destruct Hy as (z & <- & Hz). rewrite Forall_forall in Ha.
      destruct (Ha z Hz) as [Lz _]. unfold f, vmul, vadd, vscale. rewrite !map2_length, !map_length, Hvn, Hdv, !map_length.
      assert (length (dirn vv) = cm_d P) by (unfold dirn; rewrite map_length; exact Lvv). elia. }
    destruct (vs_inj s) eqn:EI.
    - destruct (HI eq_refl) as (dx & Hdx & Ldx & _).
      eapply gives_bind; [apply gives_any|]. intros z _. eapply gives_bind; [apply gives_any|]. intros u _. apply gives_ret.
      split; [rewrite !upd_length, map_length; exact La|].
      assert (HU : forall k (r : list er) l, length r = cm_d P -> Forall (fun y : list er => length y = cm_d P) l -> Forall (fun y : list er => length y = cm_d P) (upd k r l)).
      { intros k r l Hr. revert k. induction l as [|x l IH]; intros k Hl; [destruct k; constructor|]. inversion Hl; subst. destruct k; cbn; constructor; auto. }
      apply HU; [|apply HU; [|exact Hary]]; unfold vscale; rewrite ?map_length, Hdx, map_length; exact Ldx.
    - apply gives_ret. split; [rewrite map_length; exact La|exact Hary].
  Qed.
  Lemma vd_sample_ok P s : VPar P -> VInv P s -> sf (vd_sample P s) (fun ary : @matrix EArith => length ary = cm_p P /\ Forall Fp ary).
  Proof.
    intros HP HI. apply (safe_and_gives d Pc _ (fun _ => True)).
    - unfold vd_sample. eapply safe_bind; [apply safe_replicateM, (safe_randn HN d Pc)|]. intros arz _. cbv zeta.
      destruct (vs_inj s); [|apply safe_ret; exact I]. eapply safe_bind; [apply (safe_randn HN d Pc)|]. intros z _.
      eapply safe_bind; [apply (safe_raise_if _ _ _ _ (fun _ => True)); auto|]. intros _ _. apply safe_ret. exact I.
    - intros w ary w' Hx. destruct (vd_sample_len P s HI _ _ _ Hx) as [L1 L2].
      destruct (vd_sample_fin HN P s HI _ _ _ Hx) as [F1 _]. split; [exact L1|].
      rewrite <- (vp_d _ HP). clear - L2 F1. apply Forall_forall. intros y Hy. rewrite Forall_forall in L2, F1. split; [apply L2, Hy|apply F1, Hy].
  Qed.
  Lemma arx_fins P s (ary : list (list er)) : VPar P -> VI P s -> Forall Fp ary ->
    Forall Fp (map (fun y : list er => @vadd EArith (vs_xmean s) (@vscale EArith (vs_sigma s) y)) ary).
  Proof.
    intros HP [(_ & (Fx & Lx & _) & _) Hs] HF. apply Forall_forall. intros y Hy. apply in_map_iff in Hy. destruct Hy as (z & <- & Hz).
    rewrite Forall_forall in HF. destruct (HF z Hz) as [Lz Fz]. rewrite (vp_d _ HP) in Lx. split.
    - apply map2_len; [exact Lx|unfold vscale; rewrite map_length; exact Lz].
    - apply fins_add; [exact Fx|]. apply fins_scale; [apply posf_fin, Hs|exact Fz].
  Qed.

  Lemma vd_sigma_pos P s index : VPar P -> VI P s -> (vs_inj s = true -> (2 <= cm_p P)%nat) -> posf (snd (fst (vd_sigma P s index))).
  Proof.
    intros HP [(HS & (_ & _ & _ & _ & Hps & Hsf) & _) Hsg] Hp2. unfold vd_sigma. destruct (vs_inj s) eqn:EI; [|exact Hsg].
    assert (Hd : (0 < cm_d P)%nat) by (rewrite (vp_d _ HP); apply (vp_d1 _ HP)).
    destruct (vd_sigma_fin P s index Hps Hsf Hd) as [H1 _]; [rewrite EI; exact Hp2|]. unfold vd_sigma in H1. rewrite EI in H1. cbn [fst snd] in *.
    change (@num_arith ENum) with EArith in *. match goal with |- context [nexp (ndiv ?a _)] => set (ps := a) in * end. clearbody ps.
    assert (H2 : isfin (@ndiv EArith ps (@nsqrt EArith (@nN EArith (cm_d P))))).
    { rewrite nN_E. cbn [ndiv nsqrt EArith]. assert (0 < INR (cm_d P)) by (apply lt_0_INR; exact Hd).
      rewrite sqrt_fin by lra. apply fin_div; [exact H1|]. apply sqrt_lt_R0. assumption. }
    cbn [nexp nmul EArith]. apply exp_fin in H2. cbn [ndiv EArith] in H2. destruct (er_exp _) as [q| | |]; try contradiction.
    destruct (vs_sigma s) as [r| | |]; try contradiction. cbn in *. apply Rmult_lt_0_compat; assumption.
  Qed.

  Lemma vd_step_ok P it s : VPar P -> VI P s -> sf (vd_step P it s) (fun r : @VDS ENum * option Z => VP P (fst r)).
  Proof.
    intros HP HI. pose proof HI as [HV Hsg]. destruct (vp_mueff P HP) as (m & Hm & Hm1).
    pose proof (vd_step_fin HN P (vp_fins P HP) m Hm Hm1 it s HV) as HS.
    assert (HG : gives (vd_step P it s) (fun r : @VDS ENum * option Z => posf (vs_sigma (fst r)))).
    { unfold vd_step. cbv zeta. eapply gives_bind; [apply (vd_sample_fin HN P s HV)|]. intros ary [_ Hp2].
      eapply gives_bind; [apply gives_any|]. intros [[fit valid] pen] _. eapply gives_bind; [apply gives_any|]. intros r _.
      eapply gives_bind; [apply gives_any|]. intros hist _. pose proof (vd_sigma_pos P s (e_argsort fit) HP HI Hp2) as Hs.
      destruct (vd_sigma P s (e_argsort fit)) as [[ps sigma] cond]. cbn [fst snd] in Hs.
      match goal with |- gives (match ?X with pair _ _ => _ end) _ => destruct X as [v dv] end. apply gives_ret. exact Hs. }
    assert (HF : sf (vd_step P it s) (fun r : @VDS ENum * option Z => Forall Fp (vs_valid (fst r)) /\ length (vs_valid (fst r)) = cm_p P /\
      length (vs_fit (fst r)) = cm_p P /\ vs_index (fst r) = e_argsort (vs_fit (fst r)))).
    { unfold vd_step. cbv zeta. eapply safe_bind; [apply (vd_sample_ok P s HP HV)|]. intros ary [La Fa]. cbv beta in La, Fa.
      eapply safe_bind; [apply vd_fitness; [exact HP|apply (arx_fins P s ary HP HI Fa)]|].
      intros [[fit valid] pen] (H1 & H2 & H3). cbn [fst snd] in H1, H2, H3. rewrite map_length in H1, H2.
      eapply safe_bind; [apply safe_rec_write|]. intros r _. eapply safe_bind; [apply safe_hist|]. intros hist _.
      destruct (vd_sigma P s (e_argsort fit)) as [[ps sigma] cond].
      match goal with |- safe _ _ (match ?X with pair _ _ => _ end) _ => destruct X as [v dv] end. apply safe_ret.
      cbn [fst vs_valid vs_fit vs_index]. split; [exact H3|]. split; [exact (eq_trans H2 La)|]. split; [exact (eq_trans H1 La)|reflexivity]. }
    apply (safe_and_gives d Pc _ _ _ HF). intros w r w' Hx. destruct (HS _ _ _ Hx) as [K1 _].
    destruct (safe_gives _ _ _ _ HF _ _ _ Hx) as (K2 & K3 & K4 & K5). constructor; auto. exact (HG _ _ _ Hx).
  Qed.
End Run.

(** ** Before the loop *)
Section Start.
  Context {E : Env ENum}.
  Definition vd_begin (A : @CMAArgs ENum) : M (@CMAParams ENum * @VDS ENum) := cma_check A ;;; vd_prefix A.
  Lemma vdcma_begin A w : vdcma_minimize A w =
    bind (vd_begin A) (fun Ps => drive (vd_drv (fst Ps)) (has_cb (caa A)) (fuel (a_maxiter (caa A))) 0 (snd Ps)) w.
  Proof.
    unfold vdcma_minimize, vd_begin. rewrite !bind_at. destruct (cma_check A w) as [[u|e] w1] eqn:E1; [|reflexivity].
    rewrite vdcma_prefix. rewrite !bind_at. destruct (vd_prefix A w1) as [[Ps|e] w2]; reflexivity.
  Qed.
  (** The direction drawn at the start is not zero, and no iteration of the call leaves the mean where
      it was. *)
  Definition Moves (A : @CMAArgs ENum) (w : St) : Prop := forall P s0 w0, vd_begin A w = (inl (P, s0), w0) ->
    (exists x, In x (vs_vvec s0) /\ x <> Fin 0) /\
    forall j t, visited (vd_drv P) (has_cb (caa A)) (fun _ => True) 0 s0 w0 j t -> vs_xmean t <> vs_xold t.
End Start.

Section Thm.
  Context {E : Env ENum} (HE : EnvOK) (HN : forall g, isfin (fst (e_randn g))).
  Variables (A : @CMAArgs ENum) (rows : list (list er)) (sg mp : R).
  Context (HA : FiniteArgs A rows sg mp) (Hrows : rows <> []).
  Context (HB : a_backend (caa A) = Some "mpi"%string -> BcastKeeps (FinPt (length rows))).
  Notation d := (length rows).

  Lemma vrows_pos : (1 <= d)%nat.
  Proof. clear - Hrows. destruct rows; [congruence|cbn; lia]. Qed.

  Lemma begin_ok Pc : safe (FinPt d) Pc (vd_begin A) (fun Ps : @CMAParams ENum * @VDS ENum =>
    VPar d (fst Ps) /\ cm_mu (fst Ps) = parents mp (a_popsize (caa A)) /\ cm_p (fst Ps) = Z.to_nat (a_popsize (caa A)) /\
    ((exists x, In x (vs_vvec (snd Ps)) /\ x <> Fin 0) -> VI (fst Ps) (snd Ps))).
  Proof.
    unfold vd_begin. eapply safe_bind; [apply (check_ok d Pc A sg mp (fa_sigma _ _ _ _ HA) (fa_muperc _ _ _ _ HA))|].
    intros u0 [Hsg Hmp]; clear u0.
    assert (HS : safe (N := ENum) (FinPt d) Pc (vd_prefix A) (fun Ps : @CMAParams ENum * @VDS ENum =>
      VPar d (fst Ps) /\ cm_mu (fst Ps) = parents mp (a_popsize (caa A)) /\ cm_p (fst Ps) = Z.to_nat (a_popsize (caa A)) /\ posf (vs_sigma (snd Ps)))).
    { unfold vd_prefix. cbv zeta. eapply safe_bind; [apply (setup_ok HE d Pc A rows sg mp HA eq_refl Hmp HB)|].
      intros [xmean P0] (Hx & Hcd & Hp & Hmu & Hmup & Hw & Hm & Hxm & Hxs & HM). cbn [fst snd] in *.
      eapply safe_bind; [apply (safe_randn HN d Pc)|]. intros z _.
      eapply safe_bind; [apply safe_alloc|]. intros [nout ilim] _. apply safe_ret. cbn [fst snd cm_p cm_mu vs_sigma].
      split; [|split; [exact Hmu|split; [exact Hp|]]].
      - constructor; cbn [cm_d cm_mu cm_p cm_w cm_mueff cm_xm cm_xstd cm_mode]; try assumption; try reflexivity. apply vrows_pos.
      - rewrite (fa_sigma _ _ _ _ HA). exact Hsg. }
    apply (safe_and_gives d Pc _ _ _ HS). intros w [P s0] w0 Hx. cbn [fst snd].
    destruct (safe_gives _ _ _ _ HS _ _ _ Hx) as (H1 & H2 & H3 & H4). cbn [fst snd] in *.
    split; [exact H1|]. split; [exact H2|]. split; [exact H3|]. intros Hv. split; [|exact H4].
    exact (proj2 (proj2 (proj2 (proj2 (vd_start HE HN A rows sg mp w P s0 w0 HA Hx Hv))))).
  Qed.

  Lemma best_fin P s : VPar d P -> VP d P s -> FinPt d (d_x (vd_drv P) s).
  Proof.
    intros HP H. cbn [d_x vd_drv]. apply vun_fin; [exact HP|]. unfold vd_best. rewrite (vq_index _ _ _ H).
    pose proof (vq_valid _ _ _ H) as HF. rewrite Forall_forall in HF. apply HF, nth_In. rewrite (vq_p _ _ _ H).
    pose proof (proj1 (eo_argsort HE) (vs_fit s)) as Hperm. pose proof (vp_mu _ _ HP) as Hmu. pose proof (vq_fit _ _ _ H) as Lf.
    assert (Hin : In (nth 0 (e_argsort (vs_fit s)) 0%nat) (e_argsort (vs_fit s))).
    { apply nth_In. rewrite (Permutation_length Hperm), seq_length. change (length (vs_fit s)) with (length (vs_fit s : list er)). elia. }
    apply (Permutation_in _ Hperm), in_seq in Hin. elia.
  Qed.

  (** what [safe] says of one run *)
  Lemma vd_run w : Moves A w ->
    exists evs, tr (snd (vdcma_minimize A w)) = tr w ++ evs /\ Forall (shown (FinPt d) (FinCb d)) evs /\
      (forall r, fst (vdcma_minimize A w) = inl r -> FinPt d (r_x r)).
  Proof.
    intros HM. rewrite vdcma_begin, bind_at. destruct (begin_ok (FinCb d) w) as (e1 & T1 & F1 & G1). unfold Moves in HM.
    destruct (vd_begin A w) as [[[P s0]|e] w0]; cbn [fst snd] in *.
    2: { exists e1. split; [exact T1|]. split; [exact F1|discriminate]. }
    destruct (G1 _ eq_refl) as (HP & _ & _ & HI). cbn [fst snd] in *. destruct (HM _ _ _ eq_refl) as [Hv HQ].
    destruct (safe_drive_vis (N := ENum) (FinPt d) (FinCb d) (vd_drv P) (VI P) (VP d P) Moved (has_cb (caa A))) with (fuel := fuel (a_maxiter (caa A))) (it := 0%Z) (s := s0) (w := w0)
      as (e2 & T2 & F2 & G2).
    - intros it s Hs. apply (vd_step_ok HN); assumption.
    - intros it s Hs Hq. apply safe_ret. eapply post_vi; eassumption.
    - intros it s Hs _. split; [|apply best_fin; assumption]. cbn [d_pop vd_drv]. apply vun_fins; [exact HP|apply (vq_valid _ _ _ Hs)].
    - apply HI, Hv.
    - exact HQ.
    - exists (e1 ++ e2). rewrite T2, T1, app_assoc. split; [reflexivity|]. split; [apply Forall_app; auto|].
      intros r Hr. destruct (G2 r Hr) as (t & Ht & -> & _). apply best_fin; assumption.
  Qed.

  (** C54.  Every point vdcma evaluates or hands to the callback, and the point it returns, is a
      vector of [ndim] finite numbers, if no iteration leaves the mean where it was. *)
  Theorem C54_vdcma w a0 r st' : Moves A (mkSt w [] a0) -> exec (vdcma_minimize A) w a0 = (r, st') ->
    (forall x, In x (points (tr st')) -> length x = d /\ exists v : list R, x = map Fin v) /\
    (forall X st, In (X, st) (cbs (tr st')) ->
       Forall (fun x => length x = d /\ exists v : list R, x = map Fin v) X /\
       length (cb_x st) = d /\ exists v : list R, cb_x st = map Fin v) /\
    (forall res, r = inl res -> length (r_x res) = d /\ exists v : list R, r_x res = map Fin v).
  Proof.
    intros HM Hx. unfold exec in Hx. destruct (vd_run _ HM) as (evs & H1 & H2 & H3). rewrite Hx in H1, H3. cbn [fst snd tr app] in H1, H3.
    assert (HF : forall x, FinPt d x -> length x = d /\ exists v : list R, x = map Fin v)
      by (intros x [L F]; split; [exact L|apply isfin_fin, F]).
    rewrite H1. clear - H2 H3 HF.
    split; [|split].
    - intros x Hi. apply HF. induction H2 as [|ev evs Hev H2 IH]; [destruct Hi|]. destruct ev; cbn in Hi; auto. destruct Hi as [<-|Hi]; auto.
    - intros X st Hi. assert (HC : FinCb d X st).
      { induction H2 as [|ev evs Hev H2 IH]; [destruct Hi|]. destruct ev; cbn in Hi; auto. destruct Hi as [Hi|Hi]; auto. injection Hi as <- <-. exact Hev. }
      destruct HC as [HX Hst]. split; [|apply HF, Hst]. eapply Forall_impl; [|exact HX]. exact HF.
    - intros res Hr. apply HF, H3, Hr.
  Qed.
End Thm.

(** ** One parent: the mean always moves *)
(** a finite number other than zero *)
Definition drawn (x : er) : Prop := isfin x /\ x <> Fin 0.
Definition nz (y : list er) : Prop := exists x, In x y /\ x <> Fin 0.

Lemma nz_fin (v : list R) : nz (fin v) <-> exists r, In r v /\ r <> 0.
Proof.
  split.
  - intros (x & Hx & H0). apply in_map_iff in Hx. destruct Hx as (r & <- & Hr). exists r. split; [exact Hr|congruence].
  - intros (r & Hr & H0). exists (Fin r). split; [apply in_map, Hr|congruence].
Qed.
Lemma all_zero (v : list R) : (exists r, In r v /\ r <> 0) \/ Forall (fun r => r = 0) v.
Proof.
  induction v as [|a v [(r & Hr & H0)|IH]]; [right; constructor| |].
  - left. exists r. split; [right; exact Hr|exact H0].
  - destruct (Req_dec a 0) as [Ha|Ha]; [right; constructor; assumption|left; exists a; split; [left; reflexivity|exact Ha]].
Qed.
Lemma zero_rdot (a b : list R) : Forall (fun r => r = 0) a -> rdot a b = 0.
Proof. intros H. revert b. induction H as [|x a -> H IH]; intros [|y b]; unfold rdot in *; cbn; try reflexivity. rewrite IH. lra. Qed.

(** [z + k (z . u) u] is not zero when [z] is not, for [k >= 0] *)
Lemma shear_nz (z u : list R) k : length u = length z -> 0 <= k -> (exists r, In r z /\ r <> 0) ->
  exists r, In r (map2 Rplus z (map (fun x => k * (rdot z u * x)) u)) /\ r <> 0.
Proof.
  intros L Hk Hz. destruct (all_zero (map2 Rplus z (map (fun x => k * (rdot z u * x)) u))) as [H|H]; [exact H|exfalso].
  set (t := rdot z u) in *.
  assert (H1 : rdot z z + k * (t * t) = 0).
  { assert (HD : forall a b, length b = length a -> Forall (fun r => r = 0) (map2 Rplus a (map (fun x => k * (t * x)) b)) -> rdot a a + k * (t * rdot a b) = 0).
    { induction a as [|x a IH]; intros [|y b] Lab HF; try discriminate; [unfold rdot; cbn; lra|]. cbn in HF. inversion HF as [|? ? H0 HF']; subst.
      change (rdot (x :: a) (x :: a)) with (x * x + rdot a a). change (rdot (x :: a) (y :: b)) with (x * y + rdot a b).
      specialize (IH b ltac:(cbn in Lab; lia) HF'). nra. }
    apply HD; assumption. }
  destruct Hz as (r & Hr & H0). pose proof (rdot_pos_in z r Hr H0). assert (0 <= t * t) by nra. nra.
Qed.

Section One.
  Context {E : Env ENum} (HE : EnvOK) (HN : forall g, drawn (fst (e_randn g))).
  Let HN1 : forall g, isfin (fst (e_randn g)) := fun g => proj1 (HN g).

  Lemma randn_nz n : gives (randn_vec n) (fun z : evec => length z = n /\ fins z /\ ((1 <= n)%nat -> nz z)).
  Proof.
    assert (G : gives (randn_vec n) (fun z : evec => length z = n /\ Forall drawn z)) by (apply gives_replicateM, gives_draw, HN).
    intros w z w' Hx. destruct (G _ _ _ Hx) as [L F].
    split; [exact L|]. split; [eapply Forall_impl; [|exact F]; intros x Hx1; apply Hx1|]. intros Hn. destruct z as [|x z]; [cbn in L; lia|].
    exists x. split; [left; reflexivity|]. inversion F as [|? ? Hx1 _]; subst. apply Hx1.
  Qed.

  Variable d : nat.
  Notation Fp := (FinPt d).

  Lemma mul_nz (dv y : list R) : length y = length dv -> Forall (fun x => 0 < x) dv -> (exists r, In r y /\ r <> 0) ->
    exists r, In r (map2 Rmult dv y) /\ r <> 0.
  Proof.
    intros L H. revert y L. induction H as [|a dv Ha H IH]; intros [|b y] L (r & Hr & H0); try discriminate; [destruct Hr|].
    destruct Hr as [->|Hr].
    - exists (a * r). split; [left; reflexivity|]. apply Rmult_integral_contrapositive_currified; lra.
    - destruct (IH y) as (q & Hq & Hq0); [cbn in L; lia|exists r; auto|]. exists q. split; [right; exact Hq|exact Hq0].
  Qed.
  Lemma scale_nz k (v : list R) : k <> 0 -> (exists r, In r v /\ r <> 0) -> nz (@vscale EArith (Fin k) (fin v)).
  Proof.
    intros Hk (r & Hr & H0). unfold vscale. exists (Fin (k * r)). split.
    - change (Fin (k * r)) with (@nmul EArith (Fin k) (Fin r)). apply (in_map (fun x => @nmul EArith (Fin k) x)), in_map, Hr.
    - intros HH. injection HH as HH. apply Rmult_integral in HH. tauto.
  Qed.

  Lemma sample_nz P s : VPar d P -> VInv P s -> gives (vd_sample P s) (fun ary : @matrix (@num_arith ENum) => Forall nz ary).
  Proof.
    intros HP ((dv & vv & Hdv & Ldv & Pdv & Hvv & Lvv & Pvv & Hq & Hnv & Hvn & Hvnn) & _ & HI).
    pose proof (vp_d1 _ _ HP) as Hd1. pose proof (vp_d _ _ HP) as Hd. rewrite <- Hd in Hd1.
    unfold vd_sample. eapply gives_bind; [apply gives_replicateM, randn_nz|]. intros arz [_ Ha]. cbv zeta.
    change (@num_arith ENum) with EArith. set (k := @nsub EArith (@nsqrt EArith (@nadd EArith (@n1 EArith) (vs_nv2 s))) (@n1 EArith)).
    assert (Hk : exists q, k = Fin q /\ 0 <= q).
    { subst k. rewrite Hq. change (@n1 EArith) with (Fin 1). cbn [nadd nsub nsqrt EArith er_add]. rewrite sqrt_fin by lra.
      exists (sqrt (1 + rdot vv vv) - 1). split; [reflexivity|]. pose proof (sqrt_le_1 1 (1 + rdot vv vv)) as HH. rewrite sqrt_1 in HH. lra. }
    destruct Hk as (q & Ek & Hq0). rewrite Ek. clear k Ek.
    match goal with |- context [map ?g arz] => set (f := g) end.
    assert (Hary : Forall nz (map f arz)).
    { apply Forall_forall. intros y Hy. apply in_map_iff in Hy. destruct Hy as (z & <- & Hz). rewrite Forall_forall in Ha.
      destruct (Ha z Hz) as (Lz & Fz & Nz). specialize (Nz Hd1). destruct (isfin_fin z Fz) as [zr ->]. rewrite map_length in Lz. apply nz_fin in Nz.
      assert (Ldir : length (dirn vv) = length zr) by (unfold dirn; rewrite map_length; congruence).
      assert (EF : f (fin zr) = fin (map2 Rmult dv (map2 Rplus zr (map (fun x => q * (rdot zr (dirn vv) * x)) (dirn vv))))).
      { unfold f. rewrite Hvn, Hdv. rewrite vdot_fin. unfold vscale. rewrite (map_fin _ (fun x => rdot zr (dirn vv) * x)) by reflexivity.
        rewrite (map_fin _ (fun x => q * x)) by reflexivity. rewrite (map_map (fun x => rdot zr (dirn vv) * x) (fun x => q * x)). unfold vadd. rewrite (map2_fin _ Rplus) by reflexivity.
        unfold vmul. apply map2_fin. reflexivity. }
      rewrite EF. apply nz_fin, mul_nz; [|exact Pdv|].
      - rewrite map2_length, map_length, Ldir, Nat.min_id. congruence.
      - apply shear_nz; assumption. }
    destruct (vs_inj s) eqn:EI.
    - destruct (HI eq_refl) as (dx & Hdx & Ldx & x & Hx & Hx0).
      eapply gives_bind; [apply randn_nz|]. intros z (_ & Fz & Nz). specialize (Nz Hd1). eapply gives_bind; [apply gives_any|]. intros u _.
      apply gives_ret.
      assert (HD : @vdiv EArith (vs_dx s) (vs_dvec s) = fin (map2 Rdiv dx dv)).
      { rewrite Hdx, Hdv. assert (L : length dx = length dv) by congruence. clear - L Pdv. revert dv L Pdv.
        unfold vdiv. induction dx as [|a dx IH]; intros [|b dv] L Pdv; try discriminate; [reflexivity|].
        inversion Pdv; subst. cbn [map map2]. rewrite IH by (try assumption; cbn in L; lia). f_equal. apply div_fin. lra. }
      assert (HA : 0 < rdot (map2 Rdiv dx dv) (map2 Rdiv dx dv)).
      { assert (L : length dx = length dv) by congruence. clear - L Pdv Hx Hx0.
        assert (H : exists y, In y (map2 Rdiv dx dv) /\ y <> 0).
        { revert dv L Pdv. induction dx as [|a dx IH]; intros [|b dv] L Pdv; try discriminate; [destruct Hx|].
          inversion Pdv; subst. destruct Hx as [->|Hx].
          - exists (x / b). split; [left; reflexivity|]. unfold Rdiv. apply Rmult_integral_contrapositive_currified; [exact Hx0|].
            apply Rinv_neq_0_compat. lra.
          - destruct (IH Hx dv) as (y & Hy & Hy0); [cbn in L; lia|assumption|]. exists y. split; [right; exact Hy|exact Hy0]. }
        destruct H as (y & Hy & Hy0). exact (rdot_pos_in _ y Hy Hy0). }
      pose proof (mnorm_pos _ vv HA) as HM.
      match goal with |- Forall _ (upd 1 (vscale _ (vscale ?c _)) _) => set (cf := c) end.
      assert (Hcf : exists c, cf = Fin c /\ c <> 0).
      { subst cf. rewrite HD, Hvv, Hq.
        assert (E1 : map (@nsq EArith) (fin (map2 Rdiv dx dv)) = fin (map (fun x => x * x) (map2 Rdiv dx dv))) by (apply map_fin; intros; reflexivity).
        rewrite E1, vsum_fin, vdot_fin. change (@n1 EArith) with (Fin 1). unfold nsq. cbn [nadd nsub nmul ndiv nsqrt EArith er_mul er_add].
        rewrite (div_fin (rdot _ vv * _)) by lra. cbn [er_sub].
        assert (E2 : rsum (map (fun x => x * x) (map2 Rdiv dx dv)) = rdot (map2 Rdiv dx dv) (map2 Rdiv dx dv)).
        { unfold rdot. f_equal. clear. induction (map2 Rdiv dx dv) as [|a l IH]; [reflexivity|]. cbn. f_equal. exact IH. }
        rewrite E2. rewrite (sqrt_fin (_ - _)) by (apply Rlt_le; exact HM).
        destruct (isfin_fin z Fz) as [zr ->]. apply nz_fin in Nz. destruct Nz as (r & Hr & Hr0). pose proof (rdot_pos_in zr r Hr Hr0) as Hzz.
        unfold vnorm. rewrite vdot_fin. cbn [nsqrt EArith]. rewrite sqrt_fin by lra.
        pose proof (sqrt_lt_R0 _ HM) as S1. pose proof (sqrt_lt_R0 _ Hzz) as S2.
        rewrite div_fin by lra. eexists. split; [reflexivity|]. apply Rgt_not_eq, Rdiv_lt_0_compat; assumption. }
      destruct Hcf as (c & -> & Hc0). rewrite Hdx.
      assert (E3 : @vscale EArith (Fin c) (fin dx) = fin (map (fun x => c * x) dx)) by (apply map_fin; reflexivity).
      assert (N1 : exists r, In r (map (fun x => c * x) dx) /\ r <> 0).
      { exists (c * x). split; [apply (in_map (fun x => c * x)), Hx|]. apply Rmult_integral_contrapositive_currified; assumption. }
      assert (HU : forall i (r : list er) l, nz r -> Forall nz l -> Forall nz (upd i r l)).
      { intros i r l Hr. revert i. induction l as [|y l IH]; intros i Hl; [destruct i; constructor|]. inversion Hl; subst. destruct i; cbn; constructor; auto. }
      rewrite E3. apply HU; [|apply HU; [apply nz_fin, N1|exact Hary]].
      change (@nZ EArith (-1)) with (Fin (-1 * 1)) || idtac. unfold nZ. cbn [nlit EArith]. apply scale_nz; [unfold Rlit; cbn; lra|exact N1].
    - apply gives_ret. exact Hary.
  Qed.

  Lemma one_weight : @cma_weights EArith 1 = [Fin 1].
  Proof.
    rewrite cma_weights_E by lia. destruct (C27_weights 1 ltac:(lia)) as (Hl & _ & _ & Hs). cbv zeta in *.
    destruct (@cma_weights RArith 1) as [|a [|b l]]; cbn in Hl; try discriminate. cbn in Hs. cbn. f_equal. f_equal. lra.
  Qed.

  Lemma mean_moves (x y : list R) s : length x = d -> length y = d -> 0 < s -> (exists r, In r y /\ r <> 0) ->
    @vadd EArith (fin x) (@vsub EArith (@vmat EArith d [Fin 1] [@vadd EArith (fin x) (@vscale EArith (Fin s) (fin y))]) (@vscale EArith (@vsum EArith [Fin 1]) (fin x))) <> fin x.
  Proof.
    intros Lx Ly Hs Hy.
    assert (E1 : @vadd EArith (fin x) (@vscale EArith (Fin s) (fin y)) = fin (map2 (fun a b => a + s * b) x y)) by apply add_scaled_fin.
    set (q := map2 (fun a b => a + s * b) x y).
    assert (Lq : length q = d) by (unfold q; rewrite map2_length, Lx, Ly; apply Nat.min_id).
    assert (E2 : @vmat EArith d [Fin 1] [fin q] = fin q).
    { rewrite <- Lq. unfold vmat. apply nth_ext with (d := Fin 0) (d' := Fin 0); [rewrite !map_length; apply seq_length|].
      intros j Hj. rewrite map_length, seq_length in Hj. unfold col. cbn [map].
      rewrite (nth_indep _ (Fin 0) (@vdot EArith [Fin 1] [nth 0 (fin q) (@n0 EArith)])) by (rewrite map_length, seq_length; exact Hj).
      rewrite (map_nth (fun j => @vdot EArith [Fin 1] [nth j (fin q) (@n0 EArith)])), seq_nth by exact Hj.
      rewrite (nth_indep _ (Fin 0) (Fin 0)) by (rewrite map_length; exact Hj). cbn [plus].
      rewrite map_nth. change [Fin 1] with (fin [1]). change [Fin (nth j q 0)] with (fin [nth j q 0]). rewrite (vdot_fin [1] [nth j q 0]). transitivity (Fin (nth j q 0)); [|symmetry; exact (map_nth Fin q 0 j)]. generalize (nth j q 0). intros r. apply (f_equal Fin). unfold rdot. cbn. ring. }
    replace (@vmat EArith d [Fin 1] [@vadd EArith (fin x) (@vscale EArith (Fin s) (fin y))]) with (fin q) by (rewrite E1; symmetry; exact E2).
    assert (E4 : @vsum EArith [Fin 1] = Fin (rsum [1])) by exact (vsum_fin [1]). rewrite E4.
    assert (E3 : @vscale EArith (Fin (rsum [1])) (fin x) = fin x).
    { unfold vscale. rewrite (map_fin _ (fun a => rsum [1] * a)) by reflexivity. f_equal. clear. induction x as [|a x IH]; cbn; [reflexivity|]. f_equal; [lra|exact IH]. }
    rewrite E3. unfold vsub, vadd. rewrite (map2_fin _ Rminus) by reflexivity. rewrite (map2_fin _ Rplus) by reflexivity.
    intros HH. apply fin_inj in HH. subst q. clear - HH Hy Hs Lx Ly. rewrite <- Lx in Ly. clear Lx. revert y Ly HH Hy.
    induction x as [|a x IH]; intros [|b y] Ly HH Hy; try discriminate; [destruct Hy as (r & [] & _)|]. cbn in HH. injection HH as H1 H2.
    destruct Hy as (r & [->|Hr] & H0).
    - assert (s * r = 0) by lra. apply Rmult_integral in H. destruct H; lra.
    - apply (IH y); [cbn in Ly; lia|exact H2|exists r; auto].
  Qed.

  Lemma step_moves P it s : VPar d P -> VI P s -> cm_mu P = 1%nat -> gives (vd_step P it s) (fun r : @VDS ENum * option Z => Moved (fst r)).
  Proof.
    intros HP HI Hmu. pose proof HI as [HV Hsg]. unfold vd_step. cbv zeta.
    eapply gives_bind with (R := fun ary : @matrix EArith => Forall nz ary /\ length ary = cm_p P /\ Forall Fp ary).
    { intros w ary w' Hx. split; [exact (sample_nz P s HP HV _ _ _ Hx)|]. exact (safe_gives _ _ _ _ (vd_sample_ok HN1 d (fun _ _ => True) P s HP HV) _ _ _ Hx). }
    intros ary (Na & La & Fa).
    eapply gives_bind; [eapply safe_gives, (vd_fitness d (fun _ _ => True) P); [exact HP|apply (arx_fins d P s ary HP HI Fa)]|].
    intros [[fit valid] pen] (H1 & _ & _). cbn [fst snd] in H1. rewrite map_length in H1.
    eapply gives_bind; [apply gives_any|]. intros r _. eapply gives_bind; [apply gives_any|]. intros hist _.
    destruct (vd_sigma P s (e_argsort fit)) as [[ps sigma] cond].
    match goal with |- gives (match ?X with pair _ _ => _ end) _ => destruct X as [v dv] end. apply gives_ret.
    unfold Moved. cbn [fst vs_xmean vs_xold]. change (@num_arith ENum) with EArith.
    rewrite (vp_w _ _ HP), Hmu, one_weight, (vp_d _ _ HP).
    pose proof (proj1 (eo_argsort HE) fit) as Hperm. pose proof (vp_mu _ _ HP) as [_ Hp].
    assert (Lfit : length (fit : list er) = cm_p P) by (exact (eq_trans H1 La)).
    destruct (e_argsort fit) as [|k idx] eqn:Eidx.
    { apply Permutation_nil in Hperm. apply (f_equal (@length nat)) in Hperm. rewrite seq_length in Hperm. change (length fit) with (length (fit : list er)) in Hperm. cbn in Hperm. lia. }
    assert (Hk : (k < cm_p P)%nat).
    { assert (Hin : In k (seq 0 (length fit))) by (apply (Permutation_in _ Hperm); left; reflexivity). apply in_seq in Hin. elia. }
    cbn [firstn map]. change (firstn 0 idx) with (@nil nat). cbn [map].
    match goal with |- context [nth k (map ?g ary) []] => set (f := g) end.
    assert (Ek : nth k (map f ary) [] = f (nth k ary [])).
    { rewrite (nth_indep _ [] (f [])) by (rewrite map_length; elia). apply map_nth. }
    rewrite Ek. unfold f.
    assert (Hin : In (nth k ary []) ary) by (apply nth_In; elia). rewrite Forall_forall in Na, Fa. specialize (Na _ Hin). destruct (Fa _ Hin) as [Ly Fy].
    destruct (isfin_fin _ Fy) as [y Ey]. rewrite Ey in *. rewrite map_length in Ly. apply nz_fin in Na.
    destruct HV as (_ & (Fx & Lx & _) & _). destruct (isfin_fin _ Fx) as [x Ex]. rewrite Ex in *. rewrite map_length, (vp_d _ _ HP) in Lx.
    destruct (vs_sigma s) as [q| | |]; try contradiction. apply mean_moves; assumption.
  Qed.
End One.

Section OneThm.
  Context {E : Env ENum} (HE : EnvOK) (HN : forall g, drawn (fst (e_randn g))).
  Variables (A : @CMAArgs ENum) (rows : list (list er)) (sg mp : R).
  Context (HA : FiniteArgs A rows sg mp) (Hrows : rows <> []).
  Context (HB : a_backend (caa A) = Some "mpi"%string -> BcastKeeps (FinPt (length rows))).

  (** With one parent (1 <= muperc * popsize < 2) and no normal deviate equal to zero the mean moves in
      every iteration. *)
  Theorem C54_one_parent_moves w : mp * IZR (a_popsize (caa A)) < 2 -> Moves A w.
  Proof.
    intros Hlt P s0 w0 Hb.
    assert (HN1 : forall g, isfin (fst (e_randn g))) by (intros g; apply (HN g)).
    destruct (safe_gives _ _ _ _ (begin_ok HE HN1 A rows sg mp HA Hrows HB (fun _ _ => True)) _ _ _ Hb) as (HP & Hmu & _ & HI). cbn [fst snd] in *.
    assert (Hmu1 : cm_mu P = 1%nat).
    { pose proof (vp_mu _ _ HP) as [H1 _]. rewrite Hmu in *. unfold parents, Rfloor in *. pose proof (base_Int_part (mp * IZR (a_popsize (caa A)))) as [H2 _].
      assert (Int_part (mp * IZR (a_popsize (caa A))) < 2)%Z by (apply lt_IZR; lra). lia. }
    assert (Hv : exists x, In x (vs_vvec s0) /\ x <> Fin 0).
    { revert Hb. unfold vd_begin. rewrite bind_at. destruct (cma_check A w) as [[u|e] w1]; [|discriminate]. intros Hb.
      assert (HG : gives (vd_prefix A) (fun Ps : @CMAParams ENum * @VDS ENum => (1 <= cm_d (fst Ps))%nat -> nz (vs_vvec (snd Ps)))).
      { unfold vd_prefix. eapply gives_bind; [apply gives_any|]. intros [xm P0] _. cbv zeta.
        eapply gives_bind; [apply (randn_nz HN)|]. intros z (Lz & Fz & Nz). eapply gives_bind; [apply gives_any|]. intros [nout ilim] _.
        apply gives_ret. cbn [fst snd cm_d vs_vvec]. intros Hd. specialize (Nz Hd). destruct (isfin_fin z Fz) as [zr ->]. apply nz_fin in Nz.
        assert (Hs : 0 < sqrt (INR (cm_d P0))) by (apply sqrt_lt_R0, lt_0_INR; lia).
        rewrite nN_E, sqrt_fin by apply pos_INR. rewrite (map_fin _ (fun x => x / sqrt (INR (cm_d P0)))) by (intros; apply div_fin; lra).
        apply nz_fin. destruct Nz as (r & Hr & H0). exists (r / sqrt (INR (cm_d P0))). split; [apply (in_map (fun x => x / _)), Hr|].
        unfold Rdiv. apply Rmult_integral_contrapositive_currified; [exact H0|]. apply Rinv_neq_0_compat. lra. }
      apply (HG _ _ _ Hb). cbn [fst]. rewrite (vp_d _ _ HP). apply (vp_d1 _ _ HP). }
    split; [exact Hv|]. intros j t HV.
    assert (HQ : VP (length rows) P t /\ Moved t); [|exact (proj2 HQ)].
    eapply (visited_inv (N := ENum) (vd_drv P) _ _ (fun _ => VI P) (fun _ t => VP (length rows) P t /\ Moved t)); [| |exact HV|exact (HI Hv)].
    - intros it s Hs w1 r w2 Hr. split.
      + exact (safe_gives _ _ _ _ (vd_step_ok HN1 (length rows) (fun _ _ => True) P (it + 1) s HP Hs) _ _ _ Hr).
      + exact (step_moves HE HN (length rows) P (it + 1) s HP Hs Hmu1 _ _ _ Hr).
    - intros it s [H1 H2] _. apply gives_ret. eapply post_vi; eassumption.
  Qed.

  (** C54 without a condition on the run: one parent, no normal deviate equal to zero. *)
  Theorem C54_vdcma_one_parent w a0 r st' : mp * IZR (a_popsize (caa A)) < 2 -> exec (vdcma_minimize A) w a0 = (r, st') ->
    (forall x, In x (points (tr st')) -> length x = length rows /\ exists v : list R, x = map Fin v) /\
    (forall X st, In (X, st) (cbs (tr st')) ->
       Forall (fun x => length x = length rows /\ exists v : list R, x = map Fin v) X /\
       length (cb_x st) = length rows /\ exists v : list R, cb_x st = map Fin v) /\
    (forall res, r = inl res -> length (r_x res) = length rows /\ exists v : list R, r_x res = map Fin v).
  Proof.
    intros Hlt. apply (C54_vdcma HE (fun g => proj1 (HN g)) A rows sg mp HA Hrows HB). apply C54_one_parent_moves, Hlt.
  Qed.
End OneThm.
