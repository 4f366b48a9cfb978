(** C56 and C55: the conditions in exact arithmetic, calls that meet them, and calls that the
    theorems exclude for a reason. *)
From Coq Require Import Reals Lra Floats.
From Verif Require Import Base Num NumR NumE NumF Env Common DE CPSO NA Hoare EvalRules Gen Steps Hist Runs
  Best Inst Laws Safe Feas FeasPso FeasNa PlainEnv Valid Accept Enough Disc PropPop Calm Cells FeasEx Demo ExPop VdReal.
Open Scope R_scope.

(** ** Exact arithmetic: the conditions of C56 in plain terms *)
Section Exact.
  Context {E : Env ENum}.

  Lemma Rceil_le r z : r <= IZR z -> (Rceil r <= z)%Z.
  Proof.
    intros H. unfold Rceil. destruct (base_Int_part (- r)) as [H1 H2].
    assert (H3 : (- z - 1 < Int_part (- r))%Z) by (apply lt_IZR; rewrite minus_IZR, opp_IZR; lra). lia.
  Qed.

  (** [return_all]: two iterations at least, [verbosity] at most 1. *)
  Definition RecordsFit (a : @Args ENum) : Prop := a_return_all a = true ->
    (2 <= a_maxiter a)%Z /\ exists v, a_verbosity a = Fin v /\ v <= 1.
  Lemma RecOK_exact a : (0 <= a_popsize a)%Z -> RecordsFit a -> RecOK a.
  Proof.
    intros Hp H Hr. destruct (H Hr) as (Hm & v & Hv & Hle). split; [exact Hm|]. rewrite Hv.
    unfold nZ. cbn [num_arith ENum EArith nlit nmul nceilZ er_mul er_ceilZ]. rewrite Rlit_0. eexists. split; [reflexivity|]. apply Rceil_le.
    apply IZR_le in Hp. nra.
  Qed.

  Lemma within_fin lo x hi : @within ENum lo x hi -> exists r, x = Fin r /\ IZR lo <= r <= IZR hi.
  Proof.
    intros [H1 H2]. unfold nZ in *. cbn [num_arith ENum EArith nlit nltb nleb] in H1, H2. rewrite Rlit_0 in H1, H2.
    destruct x as [r| | |]; cbn in H1, H2; try discriminate. exists r. split; [reflexivity|]. split; rb; lra.
  Qed.
  Lemma within_open_fin lo x hi : @within_open ENum lo x hi -> exists r, x = Fin r /\ IZR lo < r <= IZR hi.
  Proof.
    intros [H1 H2]. unfold nZ in *. cbn [num_arith ENum EArith nlit nltb nleb] in H1, H2. rewrite Rlit_0 in H1, H2.
    destruct x as [r| | |]; cbn in H1, H2; try discriminate. exists r. split; [reflexivity|]. split; rb; lra.
  Qed.

  Lemma restart_exact p it mx g : mx <> 0%Z -> @restart_count ENum p it mx (Fin g) <> None.
  Proof.
    intros Hm. apply not_0_IZR in Hm.
    unfold restart_count, nN, n1, nZ. cbn [num_arith ENum EArith nlit nsub nadd nmul ndiv nexp ntrunc].
    rewrite !Rlit_0. cbn [er_sub er_add er_opp er_mul].
    rewrite (div_fin _ _ Hm). rewrite (div_fin 1 (Rlit 9 (-2))).
    2:{ unfold Rlit. cbn. lra. }
    cbn [er_sub er_add er_opp er_mul er_exp]. rewrite div_fin.
    - cbn. discriminate.
    - match goal with |- context [exp ?x] => pose proof (exp_pos x) end. lra.
  Qed.

  (** *** na: the limits of the cells are finite numbers as long as the models are *)
  Definition tame (v : er) : Prop := v <> PInf /\ v <> NInf.
  Lemma low_tame lim v : tame v -> exists a, @na_low ENum lim v = Fin a.
  Proof.
    intros [Hv1 Hv2]. unfold na_low. destruct (filter _ lim) as [|x l] eqn:Hf; [eexists; reflexivity|].
    assert (Hi : In (@vmax ENum (x :: l)) (x :: l)) by (apply vmax_in; discriminate).
    rewrite <- Hf in Hi at 2. apply filter_In in Hi. destruct Hi as [_ Hi].
    destruct v as [r| | |]; try congruence; destruct (@vmax ENum (x :: l)) as [m| | |]; cbn in Hi; try discriminate;
      unfold pymax; cbn; try destruct (Rltb m 0); eexists; reflexivity.
  Qed.
  Lemma high_tame lim v : tame v -> exists a, @na_high ENum lim v = Fin a.
  Proof.
    intros [Hv1 Hv2]. unfold na_high. destruct (filter _ lim) as [|x l] eqn:Hf; [eexists; reflexivity|].
    assert (Hi : In (@vmin ENum (x :: l)) (x :: l)) by (apply vmin_in; discriminate).
    rewrite <- Hf in Hi at 2. apply filter_In in Hi. destruct Hi as [_ Hi].
    destruct v as [r| | |]; try congruence; destruct (@vmin ENum (x :: l)) as [m| | |]; cbn in Hi; try discriminate;
      unfold pymin; cbn; try destruct (Rltb 1 m); eexists; reflexivity.
  Qed.
  Lemma finite_fin a b : @frange EArith [Fin a] [Fin b] = true.
  Proof. unfold frange, nfinite. rewrite zero_lit. cbn. rewrite andb_true_r. apply Reqb_true. lra. Qed.

  (** the variables that are not fixed have finite coordinates *)
  Definition Tame (mask : list bool) (x : list er) : Prop :=
    forall j, nth j mask false = true -> tame (@nth er j x (Fin 0)).
  Context (HE : EnvOK).
  Notation calm0 := (calm (extra := fun _ => False)).

  Lemma rand_fin u : isrand u -> exists r, u = Fin r.
  Proof.
    intros [r ->]. destruct (eo_rand HE r) as [H0 H1]. unfold n0, n1, nZ in *. 
    destruct (fst (e_rand r)) as [q| | |]; cbn in H0, H1; try discriminate. eexists; reflexivity.
  Qed.
  Lemma calm_uniform1_fin a b : calm0 (uniform1 (Fin a : @T (@num_arith ENum)) (Fin b)) tame.
  Proof.
    unfold uniform1. eapply calm_bind; [apply calm_urange; left; apply finite_fin|]. intros _ _. unfold uniform.
    eapply (calm_bind _ _ isrand); [apply calm_draw; intros r; exists r; reflexivity|]. intros u Hu.
    apply calm_ret. destruct (rand_fin u Hu) as [q ->]. cbn. split; discriminate.
  Qed.
  Lemma Tame_upd mask j v x : tame v -> Tame mask x -> Tame mask (@upd er j v x).
  Proof.
    intros Hv Hx k Hk. destruct (Nat.eq_dec j k) as [<-|Hjk].
    - destruct (Nat.lt_ge_cases j (length x)) as [Hl|Hl].
      + rewrite upd_nth_same by exact Hl. exact Hv.
      + rewrite nth_overflow by (rewrite upd_length; exact Hl). split; discriminate.
    - rewrite upd_nth_other by congruence. apply Hx, Hk.
  Qed.
  Lemma Mutates_exact P : Mutates (extra := fun _ => False) (Tame (span_mask (na_lower P) (na_upper P))) P.
  Proof.
    intros Xall fit HX. unfold na_mutation. cbn zeta. set (mask := span_mask _ _) in *.
    eapply calm_conseq; [apply (calm_mapM _ _ (Tame mask))|intros X [HL HF]; rewrite seq_length in HL; auto].
    intros i _. unfold na_one. cbn zeta. set (k := nth (i mod na_nr P) _ _). clearbody k.
    eapply (calm_bind _ _ (fun acc : list er * er * list er => Tame mask (fst (fst acc))));
      [|intros acc Ha; apply calm_ret; exact Ha].
    apply calm_foldM.
    - cbn [fst]. destruct (Nat.lt_ge_cases k (length Xall)) as [Hl|Hl].
      + rewrite Forall_forall in HX. apply HX, nth_In, Hl.
      + rewrite nth_overflow by exact Hl. intros j _. destruct j; split; discriminate.
    - intros [[x d1] d2] j _ Hx. cbn [fst] in Hx. unfold na_axis.
      destruct (nth j mask false) eqn:Hm; cbn [negb].
      + cbv zeta. set (lim := na_lims _ _ _ _). clearbody lim.
        destruct (low_tame lim _ (Hx j Hm)) as [a Ha]. destruct (high_tame lim _ (Hx j Hm)) as [b Hb].
        eapply calm_bind.
        { match goal with |- calm (uniform1 ?l ?h) _ => change l with (@na_low ENum lim (@nth er j x (Fin 0)));
            change h with (@na_high ENum lim (@nth er j x (Fin 0))) end.
          rewrite Ha, Hb. apply calm_uniform1_fin. }
        intros v Hv. destruct (_ <? _)%nat; apply calm_ret; cbn [fst]; apply Tame_upd; assumption.
      + apply calm_ret. cbn [fst]. apply Tame_upd; [split; discriminate|exact Hx].
  Qed.

  (** normalised coordinates *)
  Definition tameb (b : er * er) (v : er) : Prop :=
    match er_sub (snd b) (fst b) with Fin _ => tame v | _ => True end.
  Lemma normalize_tame lo hi x : Forall2 tameb (combine lo hi) x ->
    Tame (@span_mask ENum lo hi) (@normalize ENum lo hi x).
  Proof.
    revert hi x. induction lo as [|l lo IH]; intros [|h hi] x HF; inversion HF as [|? v ? x' Hb HF']; subst.
    1-3: intros [|j] Hj; discriminate Hj.
    specialize (IH hi x' HF'). intros [|j] Hj; [|exact (IH j Hj)].
    unfold span_mask, normalize in *. cbn in Hj |- *. unfold tameb in Hb. cbn [fst snd] in Hb.
    rewrite Hj. destruct (er_sub h l) as [w| | |] eqn:Hw; cbn in Hj; try discriminate.
    - rb. assert (exists l', l = Fin l') as [l' ->] by (destruct h, l; cbn in Hw; try discriminate; eauto).
      destruct Hb as [Hb1 Hb2]. destruct v as [v| | |]; try congruence; cbn.
      + destruct (Req_EM_T w 0); [lra|]. split; discriminate.
      + split; discriminate.
    - destruct (er_sub v l); cbn; split; discriminate.
  Qed.

  (** The conditions of C56 without arithmetic detail. *)
  Definition Sound (c : @PopCall ENum) : Prop :=
    RecordsFit (pop_args c) /\
    match c with
    | CallDE A => ValidDE A /\ HasDim (dea A) /\ ArrayX0 (dea A) /\
                  (needs (dea_strategy A) <= a_popsize (dea A) - 1)%Z /\
                  (a_constraints (dea A) <> None -> FiniteRange (a_bounds (dea A)))
    | CallCPSO A => ValidCPSO A /\ ArrayX0 (pa A) /\ (pa_competitivity A <> None -> FiniteRange (a_bounds (pa A)))
    | CallPSO A => ValidCPSO (mkCPSOArgs (psa A) (psa_inertia A) (psa_cognitivity A) (psa_sociability A)
                                         None (psa_updating A)) /\ ArrayX0 (psa A)
    | CallNA A => ValidNA A /\ forall x, a_x0 (naa A) = Some x ->
        Forall (fun r => length r = nd_len (a_bounds (naa A)) /\ Forall tame r) (nd_rows x)
    end.
  Lemma Sound_Ready c : Sound c -> Ready c.
  Proof.
    intros [Hr H]. split.
    - apply RecOK_exact; [|exact Hr]. enough (2 <= a_popsize (pop_args c))%Z by lia.
      destruct c as [A|A|A|A]; cbn [pop_args].
      + apply (vp_pop _ (vd_pop _ (proj1 H))).
      + apply (vp_pop _ (vc_pop _ (proj1 H))).
      + apply (vp_pop _ (vc_pop _ (proj1 H))).
      + apply (vp_pop _ (vn_pop _ (proj1 H))).
    - destruct c as [A|A|A|A]; try exact H.
      + destruct H as (H1 & H2 & H3). split; [exact H1|]. split; [exact H2|]. split; [|exact H3]. intros g it Hg Hit.
        pose proof (vc_g _ H1) as Hw. rewrite Hg in Hw. apply within_fin in Hw. destruct Hw as (r & -> & _).
        apply restart_exact. lia.
      + destruct H as [H _]. split; [exact H|]. destruct (within_open_fin _ _ _ (vn_nr _ H)) as (r & -> & _).
        unfold nZ. cbn. discriminate.
  Qed.

  Lemma calm_exact c : Sound c -> calm0 (pop_run c) (fun _ => True).
  Proof.
    intros HS. pose proof (Sound_Ready c HS) as HR.
    destruct c as [A|A|A|A]; try solve [apply calm_pop; [exact HE|exact HR|intros []]].
    destruct HS as [_ [HV Hx]]. destruct HR as [Hr [_ Hn]]. cbn [pop_run pop_args] in *.
    destruct (vp_bounds _ (vn_pop _ HV)) as (ndim & (rws & Hb & Hlr) & Hx0).
    set (mask := @span_mask ENum (lows rws) (ups rws)).
    refine (calm_na (extra := fun _ => False) A (Tame mask) HE HV Hr Hn _).
    intros rows Hb2. rewrite Hb in Hb2. injection Hb2 as <-. split.
    2: { intros P HL HU. unfold mask, lows, ups. rewrite <- HL, <- HU. apply Mutates_exact. }
    destruct (a_x0 (naa A)) as [x|] eqn:Hx1.
    - apply calm_ret. specialize (Hx x eq_refl). eapply Forall_impl; [|exact Hx].
      intros r [Hl Hrt]. apply normalize_tame. rewrite Hb in Hl. cbn [nd_len] in Hl.
      apply (Forall2_nth _ _ _ (Fin 0, Fin 0) (Fin 0)).
      { rewrite combine_length. rewrite !map_length. rewrite Nat.min_id. symmetry. exact Hl. }
      intros i Hi. unfold tameb. destruct (er_sub _ _); auto.
      rewrite Forall_forall in Hrt. apply Hrt, nth_In. rewrite combine_length, !map_length, Nat.min_id in Hi.
      rewrite Hl. exact Hi.
    - intros s. pose proof (safe_lhs (fun _ => True) (fun _ _ => True) HE tameb (Z.to_nat (a_popsize (naa A)))
        (nd_len (a_bounds (naa A))) (lows rws) (ups rws)) as HL.
      rewrite Hb in HL |- *. cbn [nd_len] in HL |- *.
      specialize (HL (map_length _ _) (map_length _ _)).
      assert (Hcond : Forall (LhsLaw tameb (Z.to_nat (a_popsize (naa A)))) (combine (lows rws) (ups rws))).
      { apply Forall_forall. intros [l h] _ v k Hv0 Hv1 Hk. unfold tameb. cbn [fst snd].
        destruct (er_sub h l) as [w| | |] eqn:Hw; auto.
        destruct h as [h| | |], l as [l| | |]; try discriminate Hw.
        destruct (unit_draw v Hv0 Hv1) as (r & -> & _). rewrite lhs_point_exact by lia. split; discriminate. }
      specialize (HL Hcond s). destruct HL as (evs & _ & _ & HL).
      pose proof (calm_x0 (extra := fun _ => False) (naa A) (lows rws) (ups rws) (length rws) (vn_pop _ HV) s) as HC.
      rewrite Hx1 in HC. unfold lows, ups in HC, HL. unfold mask.
      destruct (fst (lhs _ _ _ _ s)) as [X|e]; [|exact HC].
      eapply Forall_impl; [|exact (proj2 (HL X eq_refl))]. intros x0 Hx0'. apply normalize_tame, Hx0'.
  Qed.

  (** C56 in exact arithmetic. *)
  Theorem C56_exact c w a0 : Sound c ->
    (exists res st', exec (pop_run c) w a0 = (inl res, st')) \/
    (exists n st', exec (pop_run c) w a0 = (inr (UserError n), st') /\ user_raises n).
  Proof.
    intros H. destruct (exec (pop_run c) w a0) as [[res|e] st'] eqn:Hx; [left; eauto|right].
    destruct (calm_leaves (fun _ => False) c w a0 e st' HE (calm_exact c H) Hx) as [(n & -> & Hn)|[]]. eauto.
  Qed.
  Corollary C56_exact_returns c w a0 : Sound c -> (forall n, ~ user_raises n) ->
    exists res st', exec (pop_run c) w a0 = (inl res, st').
  Proof. intros H Hn. destruct (C56_exact c w a0 H) as [H1|(n & _ & _ & H1)]; [exact H1|destruct (Hn n H1)]. Qed.
End Exact.

(** ** Calls that meet the conditions: they return *)
Lemma EE_no_raise f n : ~ @user_raises ENum (EE f) n.
Proof. intros [(x & w & w' & H)|(X & st & w & w' & H)]; cbn in H; discriminate. Qed.
Lemma eargs_fit con x0 : RecordsFit (eargs con x0).
Proof. intros _. cbn. split; [lia|]. exists 1. split; [reflexivity|lra]. Qed.

Lemma fin_range rows : Forall (fun r : list er => exists a b, r = [Fin a; Fin b]) rows -> FiniteRange (@D2 EArith 2 rows).
Proof.
  intros H. apply frange_rows. unfold frange. induction H as [|r rows (a & b & ->) _ IH]; [reflexivity|].
  cbn [map combine forallb fst snd nth]. rewrite IH, andb_true_r.
  pose proof (finite_fin a b) as H. unfold frange in H. cbn [combine forallb fst snd] in H. rewrite andb_true_r in H. exact H.
Qed.
Lemma eargs_range con x0 : FiniteRange (a_bounds (eargs con x0)).
Proof. apply fin_range. repeat constructor; eexists; eexists; reflexivity. Qed.

Theorem C56_hypotheses f w a0 x0 : x0 = Some ex0 \/ x0 = None ->
  Forall (fun c => @Sound c /\ exists res st', @exec ENum (EE f) _ (pop_run c) w a0 = (inl res, st'))
    [CallDE (e_de x0); CallCPSO (e_cpso x0); CallNA (e_na x0)].
Proof.
  intros Hx0. destruct within_ex as (W1 & W2 & W3 & W4 & W5).
  assert (HV : forall c, ValidPop (eargs c x0)) by (intros c; destruct Hx0 as [-> | ->]; apply eargs_valid).
  assert (HS : forall c : @PopCall ENum, Sound c -> Sound c /\ exists res st', @exec ENum (EE f) _ (pop_run c) w a0 = (inl res, st')).
  { intros c H. split; [exact H|]. apply C56_exact_returns; [apply EE_OK|exact H|apply EE_no_raise]. }
  constructor; [apply HS|constructor; [apply HS|constructor; [apply HS|constructor]]].
  - split; [apply eargs_fit|]. split; [|split; [|split; [|split]]].
    + constructor; try apply HV; try exact W1; try exact W2; try exact W3; try exact W4; cbn; auto.
    + unfold HasDim. cbn. lia.
    + intros _. reflexivity.
    + cbn. lia.
    + intros _. apply eargs_range.
  - split; [apply eargs_fit|]. split; [|split; [intros _; reflexivity|intros _; apply eargs_range]].
    constructor; try apply HV; try exact W1; try exact W2; try exact W3; try exact W4; cbn; auto.
  - split; [apply eargs_fit|]. split; [constructor; [apply HV|exact W5]|].
    destruct Hx0 as [-> | ->]; [|discriminate]. intros x Hx. injection Hx as <-. cbn. repeat constructor; discriminate.
Qed.

(** ** C55: a call that meets the hypotheses *)
Definition pbox : list (list er) := [[Fin (-1); Fin 1]; [Fin 0; Fin 2]].
Lemma pbox_proper : proper pbox.
Proof. repeat constructor; eexists; eexists; (split; [reflexivity|lra]). Qed.
Definition p_na : @NAArgs ENum :=
  mkNAArgs (@mkArgs ENum true (@D2 EArith 2 pbox) None true 9 4 (Some 0%Z) (Fin 0) (Fin (-1)) None 1 None false (Fin 1) CbNone)
           (Fin (1/2)).

(** The objective is the constant 1, [ftol] is -1: all nine generations run, four models each. *)
Theorem C55_hypotheses w a0 : let E := EE (fun _ => Fin 1) in
  exists res st', exec (na_minimize p_na) w a0 = (inl res, st') /\
    exists h, Neighbourhood pbox 4 2 h (evals (tr st')).
Proof.
  intros E.
  assert (HV : ValidNA p_na).
  { constructor; [|apply within_ex]. constructor; try reflexivity; try discriminate.
    exists 2%nat. split; [exists pbox; split; reflexivity|exact I]. }
  destruct (C56_exact_returns (EE_OK _) (CallNA p_na) w a0) as (res & st' & Hx).
  { split; [discriminate|]. split; [exact HV|discriminate]. }
  { apply EE_no_raise. }
  exists res, st'. split; [exact Hx|].
  assert (HB : a_backend (naa p_na) <> Some "mpi"%string) by discriminate.
  assert (H0 : forall x, a_x0 (naa p_na) = Some x -> Forall (FBox pbox) (nd_rows x)) by discriminate.
  destruct (C55_na (EE_OK _) p_na pbox eq_refl pbox_proper HB H0 w a0 res st' Hx)
    as (p & nr & h & Hp & Hn & (q & Hq & Hqn) & _ & HN).
  cbn in Hp. assert (p = 4%nat) by lia. subst p. cbn in Hq. injection Hq as <-.
  assert (INR 4 = 4) by (cbn; lra). rewrite H in Hqn. rewrite Rmax_right in Hqn by lra.
  assert (nr = 2%nat).
  { assert (A1 : INR nr < INR 3) by (cbn; lra). assert (A2 : INR 1 < INR nr) by (cbn; lra).
    apply INR_lt in A1. apply INR_lt in A2. lia. }
  subst nr. exists h. exact HN.
Qed.

(** ** Why the hypotheses are there (binary64, runs computed by the kernel) *)
Section Float.
  Variable F : FloatFuns.
  Notation NF := (FNum F).

  (** C55, a fixed variable: the update of the distances is skipped (na/_na.py:286-289), the limits of
      the next axis are the neighbouring models themselves.  The parent (the best model) is at 0.5,
      the new model at 0.875 is closer to the model at 1. *)
  Definition fx_box : @nd (@num_arith NF) := @D2 (FArith F) 2 [[0; 0]; [0; 1]]%float.
  Definition fx_na : @NAArgs NF :=
    @mkNAArgs NF (@mkArgs NF true fx_box (Some (@D2 (FArith F) 2 [[0; 0.5]; [0; 0]; [0; 1]]%float)) true 2 3
                    None 0%float (-1)%float None 1 None false 1%float CbNone) 0.375%float.
  Definition f_half (x : list float) : float + nat :=
    inl (let y := (nth 1 x 0 - 0.5)%float in y * y)%float.
  Definition all_875 : Script := mkScript (repeat 0.875%float 8) [] [] [].
  Definition same_evals (l : list (list float * float)) (m : list (list float)) : bool :=
    (length l =? length m)%nat &&
    forallb (fun q => forallb (fun r => PrimFloat.eqb (fst r) (snd r)) (combine (fst (fst q)) (snd q))) (combine l m).
  Theorem C55_fixed_axis : exists res st',
    @exec NF (DemoEnv F f_half) _ (na_minimize fx_na) (all_875, tt) None = (inl res, st') /\
    same_evals (evals (tr st')) [[0; 0.5]; [0; 0]; [0; 1]; [0; 0.875]; [0; 0.875]; [0; 0.875]]%float = true.
  Proof. apply (ran (E := DemoEnv F f_half)). vm_compute. reflexivity. Qed.

  (** C56, [return_all] with maxiter = 1: IndexError after two generations of evaluations. *)
  Theorem C56_maxiter_one : exists st',
    @exec NF (DemoEnv F f_sphere) _ (de_minimize
      (@mkDEArgs NF (demo_args F None 1 4 0%float (-1)%float None true 1%float) 0.5%float 0.5%float "rand1bin" "deferred"))
      w0 None = (inr IndexError, st') /\ (ncalls (tr st') =? 8)%nat = true.
  Proof. apply (raised (E := DemoEnv F f_sphere)). vm_compute. reflexivity. Qed.
  (** The same call without [return_all] returns. *)
  Theorem C56_maxiter_one_plain : exists res st',
    @exec NF (DemoEnv F f_sphere) _ (de_minimize
      (@mkDEArgs NF (demo_args F None 1 4 0%float (-1)%float None false 1%float) 0.5%float 0.5%float "rand1bin" "deferred"))
      w0 None = (inl res, st') /\ (ncalls (tr st') =? 8)%nat = true.
  Proof. apply (ran (E := DemoEnv F f_sphere)). vm_compute. reflexivity. Qed.
  (** [verbosity] above 1: no rows to record. *)
  Theorem C56_verbosity_two : exists st',
    @exec NF (DemoEnv F f_sphere) _ (de_minimize
      (@mkDEArgs NF (demo_args F None 5 4 0%float (-1)%float None true 2%float) 0.5%float 0.5%float "rand1bin" "deferred"))
      w0 None = (inr ValueError, st') /\ (ncalls (tr st') =? 4)%nat = true.
  Proof. apply (raised (E := DemoEnv F f_sphere)). vm_compute. reflexivity. Qed.

  (** An infinite bound: de with [constraints="Random"] raises OverflowError when it draws the points
      for the first candidate, after the evaluations of the first generation. *)
  Definition inf_box : @nd (@num_arith NF) := @D2 (FArith F) 2 [[0; PrimFloat.infinity]]%float.
  Definition inf_x0 : @nd (@num_arith NF) := @D2 (FArith F) 1 [[1]; [2]; [3]; [4]]%float.
  Definition inf_args (con : option string) : @Args NF :=
    @mkArgs NF true inf_box (Some inf_x0) true 3 4 None 0%float (-1)%float con 1 None false 1%float CbNone.
  Theorem C56_infinite_bound : exists st',
    @exec NF (DemoEnv F f_sphere) _ (de_minimize (@mkDEArgs NF (inf_args (Some "Random"%string)) 0.5%float 0.5%float "rand1bin" "deferred"))
      w0 None = (inr OverflowError, st') /\ (ncalls (tr st') =? 4)%nat = true.
  Proof. apply (raised (E := DemoEnv F f_sphere)). vm_compute. reflexivity. Qed.
  (** Without constraints the bounds are not looked at again. *)
  Theorem C56_infinite_bound_plain : exists res st',
    @exec NF (DemoEnv F f_sphere) _ (de_minimize (@mkDEArgs NF (inf_args None) 0.5%float 0.5%float "rand1bin" "deferred"))
      w0 None = (inl res, st') /\ (8 <=? ncalls (tr st'))%nat = true.
  Proof. apply (ran (E := DemoEnv F f_sphere)). vm_compute. reflexivity. Qed.
  (** na raises OverflowError of its own when a coordinate of x0 is infinite. *)
  Theorem C56_na_overflow : exists st',
    @exec NF (DemoEnv F f_sphere) _ (na_minimize (@mkNAArgs NF (@mkArgs NF true (@D2 (FArith F) 2 [[0; 1]]%float)
        (Some (@D2 (FArith F) 1 [[PrimFloat.infinity]; [0]; [PrimFloat.infinity]]%float)) true 3 3 None 0%float (-1)%float
        None 1 None false 1%float CbNone) 1%float)) w0 None = (inr OverflowError, st') /\ (ncalls (tr st') =? 3)%nat = true.
  Proof. apply (raised (E := DemoEnv F f_sphere)). vm_compute. reflexivity. Qed.
End Float.
