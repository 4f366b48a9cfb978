(** C31 for the runs of vdcma (exact arithmetic). *)
From Coq Require Import Reals Lra Psatz.
From Verif Require Import Base Num NumR NumE Env Common DE Mat CMAES VDCMA Weights Inst FeasPso VdReal Visit.
Open Scope R_scope.

Notation evec := (@vec (@num_arith ENum)).
Notation fin := (map Fin).
Notation fins l := (Forall isfin l).

(** ** The strategy parameters are the real ones *)
Lemma nN_E n : @nN EArith n = Fin (INR n).
Proof. unfold nN, nZ. cbn. rewrite <- INR_IZR_INZ. reflexivity. Qed.
Lemma ln_fin r : 0 < r -> er_ln (Fin r) = Fin (ln r).
Proof. intros H. cbn. destruct (Rlt_dec 0 r); [reflexivity|lra]. Qed.
Lemma raw_weights_E mu : @raw_weights EArith mu = fin (@raw_weights RArith mu).
Proof.
  rewrite raw_weights_eq. unfold raw_weights. rewrite map_map. apply map_ext_in. intros k Hk. apply in_seq in Hk.
  rewrite !nN_E. cbn [nadd nsub nln nlit EArith er_add]. replace (Rlit 5 (-1)) with (/ 2) by (unfold Rlit; cbn; lra).
  pose proof (pos_INR mu). assert (0 < INR k) by (apply lt_0_INR; lia). rewrite !ln_fin by lra. reflexivity.
Qed.
Lemma raw_sum_pos mu : (1 <= mu)%nat -> 0 < rsum (@raw_weights RArith mu).
Proof. intros H. apply rsum_pos; [|apply raw_weights_pos]. rewrite raw_weights_eq. destruct mu; [lia|discriminate]. Qed.
Lemma cma_weights_E mu : (1 <= mu)%nat -> @cma_weights EArith mu = fin (@cma_weights RArith mu).
Proof.
  intros H. unfold cma_weights. cbv zeta. rewrite raw_weights_E, vsum_fin, vsum_rsum.
  apply map_fin. intros x _. apply div_fin. pose proof (raw_sum_pos mu H). lra.
Qed.
Lemma cma_mueff_E mu : (1 <= mu)%nat -> @cma_mueff EArith (@cma_weights EArith mu) = Fin (@cma_mueff RArith (@cma_weights RArith mu)).
Proof.
  intros H. rewrite cma_weights_E by exact H. destruct (C27_weights mu H) as (Hl & Hp & _ & Hs). cbv zeta in *.
  set (w := @cma_weights RArith mu : list R) in *. unfold cma_mueff. rewrite vsum_fin.
  assert (E : map (@nsq EArith) (fin w) = fin (map (fun x => x * x) w)) by (apply map_fin; intros; reflexivity).
  rewrite E, vsum_fin, !vsum_rsum. unfold nsq. cbn [nmul ndiv EArith RArith er_mul]. apply div_fin.
  apply Rgt_not_eq. apply rsum_pos.
  - destruct w; [cbn in Hl; lia|discriminate].
  - apply Forall_forall. intros y Hy. apply in_map_iff in Hy. destruct Hy as (x & <- & Hx). rewrite Forall_forall in Hp. specialize (Hp x Hx). cbv beta in Hp. nra.
Qed.

(** ndim <= 5: the sum of the learning rates is not positive *)
Lemma cmu_E n m : 0 < m -> 0 <= n -> @vd_c1 EArith (Fin n) (Fin m) = Fin (@vd_c1 RArith n m) /\ @vd_cmu EArith (Fin n) (Fin m) = Fin (@vd_cmu RArith n m).
Proof.
  intros Hm Hn.
  assert (HC : @vd_c1 EArith (Fin n) (Fin m) = Fin (@vd_c1 RArith n m)).
  { unfold vd_c1, vd_cfactor, nsq, nZ. cbn [nadd nsub nmul ndiv nlit EArith RArith er_sub er_add er_mul].
    rewrite (div_fin (n - Rlit 5 0)) by (cbn; lra). cbn [er_mul]. apply div_fin. unfold Rlit. cbn. nra. }
  split; [exact HC|]. unfold vd_cmu. rewrite HC. unfold vd_cfactor, nsq, nZ.
  change (@n1 EArith) with (Fin 1). change (@n1 RArith) with 1.
  cbn [nadd nsub nmul ndiv nlit EArith RArith er_sub er_add er_mul].
  rewrite (div_fin (n - Rlit 5 0)) by (cbn; lra). rewrite (div_fin 1 m) by lra. cbn [er_mul er_add er_sub].
  rewrite div_fin by (unfold Rlit; cbn; nra).
  unfold pymin. cbn [nltb EArith RArith er_ltb]. destruct (Rltb _ _); reflexivity.
Qed.
Lemma Rdiv_neg a b : a <= 0 -> 0 < b -> a / b <= 0.
Proof. intros Ha Hb. pose proof (Rinv_0_lt_compat b Hb). unfold Rdiv. nra. Qed.
Lemma low_rates n m : 0 < m -> 0 <= n <= 5 -> @vd_c1 RArith n m <= 0 /\ @vd_cmu RArith n m <= 0.
Proof.
  intros Hm Hn. assert (HC : @vd_c1 RArith n m <= 0).
  { unfold vd_c1, vd_cfactor, nsq, nZ. cbn [nadd nsub nmul ndiv nlit RArith]. unfold Rlit.
    assert (0 < (n + 13 / 10) * (n + 13 / 10) + m) by nra.
    apply Rdiv_neg; [lra|]. cbn. cbn in H. lra. }
  split; [exact HC|]. unfold vd_cmu. rewrite pymin_R. eapply Rle_trans; [apply Rmin_r|].
  unfold vd_cfactor, nsq, nZ. change (@n1 RArith) with 1. cbn [nadd nsub nmul ndiv nlit RArith]. unfold Rlit.
  pose proof (sq_plus_inv m Hm) as Hs. assert (0 < (n + 2) * (n + 2) + m) by nra.
  assert (Hcf : (n - 5) / 6 * 2 <= 0) by lra.
  assert ((n - 5) / 6 * 2 * (m - 2 + 1 / m) <= 0) by nra.
  apply Rdiv_neg; assumption.
Qed.

(** ** The part of vdcma before its loop *)
Section Prefix.
  Context {E : Env ENum}.
  Definition vd_prefix (A : CMAArgs) : M (CMAParams * VDS) :=
    let a := caa A in
    '(xmean, P0) <- cma_setup A ;;
    let d := cm_d P0 in
    z <- randn_vec d ;;
    let vvec := map (fun x => er_div x (er_sqrt (@nN EArith d))) z in
    '(nout, ilim) <- cma_alloc a ;;
    let P := mkCMAParams (cm_p P0) d (cm_mu P0) (cm_w P0) (cm_mueff P0) (cm_xm P0) (cm_xstd P0)
                         (cm_pen P0) (cm_maxiter P0) (cm_xtol P0) (cm_ftol P0) (cm_insigma P0)
                         ilim (cm_mode P0) nout in
    let nv2 := @vdot EArith vvec vvec in
    let nv := er_sqrt nv2 in
    let vn := map (fun x => er_div x nv) vvec in
    ret (P, mkVDS xmean (e_empty d) (repeat (Fin 0) d) (Fin 0) (repeat (Fin 1) d) vvec nv2 nv vn (map (@nsq EArith) vn)
                   (repeat (Fin 0) d) false (caa_sigma A) (cma_init_pen d) 0
                   (repeat (Fin 0) (Z.to_nat (a_maxiter a))) [] [] []
                   (match nout with Some _ => Some ([], []) | None => None end)).
  (** vdcma is this, then the loop *)
  Lemma vdcma_prefix A w : vdcma A w =
    bind (vd_prefix A) (fun Ps => drive (vd_drv (fst Ps)) (has_cb (caa A)) (fuel (a_maxiter (caa A))) 0 (snd Ps)) w.
  Proof.
    unfold vdcma, vd_prefix, bind. destruct (cma_setup A w) as [[[xmean P0]|e] w1]; [|reflexivity].
    destruct (randn_vec (cm_d P0) w1) as [[z|e] w2]; [|reflexivity].
    destruct (cma_alloc (caa A) w2) as [[[nout ilim]|e] w3]; reflexivity.
  Qed.
End Prefix.

Section LowDim.
  Context {E : Env ENum}.

  Lemma add_zero (l : list er) d : length l = d -> @vadd EArith l (@vscale EArith (@n1 EArith) (repeat (@n0 EArith) d)) = l.
  Proof.
    intros <-. change (@n0 EArith) with (Fin 0). change (@n1 EArith) with (Fin 1). unfold vadd, vscale.
    induction l as [|x l IH]; cbn [length repeat map map2]; [reflexivity|]. f_equal; [|exact IH].
    destruct x; cbn; try reflexivity. f_equal. lra.
  Qed.

  Lemma low_update vmx vmn d c1 cmu w ary pc cond dv vv nv2 nv vn vnn :
    @nltb EArith (@n0 EArith) (@nadd EArith cmu c1) = false -> length dv = d -> length vv = d ->
    @vd_update EArith vmx vmn d c1 cmu w ary pc cond dv vv nv2 nv vn vnn = (vv, dv).
  Proof.
    intros H Hd Hv. unfold vd_update. destruct (vd_alpha vmx vnn nv2) as [[[al av] b] iv].
    destruct (if neqb cmu _ then _ else _) as [pm qm]. destruct (if neqb c1 _ then _ else _) as [p1 q1].
    destruct (if cond then _ else _) as [pv qv]. rewrite H. rewrite !add_zero by assumption. reflexivity.
  Qed.

  (** the learning rates of a run: [mu] parents in dimension [d] *)
  Lemma low_sum d mu : (d <= 5)%nat -> let m := @cma_mueff EArith (@cma_weights EArith mu) in
    @nltb EArith (@n0 EArith) (@nadd EArith (@vd_cmu EArith (@nN EArith d) m) (@vd_c1 EArith (@nN EArith d) m)) = false.
  Proof.
    intros Hd m. unfold m. clear m. rewrite nN_E. destruct mu as [|mu].
    - assert (Hm : @cma_mueff EArith (@cma_weights EArith 0) = NaN).
      { unfold cma_mueff. cbn. destruct (Req_EM_T 0 0); [|lra]. unfold er_sgn.
        destruct (Rlt_dec 0 (0 * 0)); [lra|]. destruct (Rlt_dec (0 * 0) 0); [lra|reflexivity]. }
      rewrite Hm.
      assert (Hc : @vd_c1 EArith (Fin (INR d)) NaN = NaN).
      { unfold vd_c1. cbn [nadd nmul ndiv EArith].
        match goal with |- er_div ?a (er_add ?b NaN) = _ => replace (er_add b NaN) with NaN by (destruct b; reflexivity); destruct a; reflexivity end. }
      rewrite Hc. cbn [nadd EArith]. destruct (vd_cmu _ _); reflexivity.
    - rewrite cma_mueff_E by lia. destruct (C27_mueff (S mu) ltac:(lia)) as [Hm _]. set (m := @cma_mueff RArith _) in *. clearbody m.
      assert (H5 : 0 <= INR d <= 5) by (split; [apply pos_INR|apply (le_INR d 5) in Hd; cbn in Hd; lra]).
      destruct (cmu_E (INR d) m) as [-> ->]; [lra|lra|]. destruct (low_rates (INR d) m) as [H1 H2]; [lra|exact H5|].
      cbn. rb. change (Rlit 0 0) with 0 || idtac. cbn in *. lra.
  Qed.

  Lemma vd_prefix_gives A : gives (vd_prefix A) (fun Ps =>
    let P := fst Ps in let s := snd Ps in let d := cm_d P in
    d = nd_len (a_bounds (caa A)) /\ cm_w P = @cma_weights EArith (cm_mu P) /\ cm_mueff P = @cma_mueff EArith (@cma_weights EArith (cm_mu P)) /\
    vs_dvec s = repeat (Fin 1) d /\ length (vs_vvec s) = d /\ vs_inj s = false /\
    vs_nv2 s = @vdot EArith (vs_vvec s) (vs_vvec s) /\ vs_nv s = er_sqrt (vs_nv2 s) /\
    vs_vn s = map (fun x => er_div x (vs_nv s)) (vs_vvec s) /\ vs_vnn s = map (@nsq EArith) (vs_vn s)).
  Proof.
    unfold vd_prefix. eapply gives_bind with (R := fun xP : evec * @CMAParams ENum => cm_d (snd xP) = nd_len (a_bounds (caa A)) /\ cm_w (snd xP) = @cma_weights EArith (cm_mu (snd xP)) /\ cm_mueff (snd xP) = @cma_mueff EArith (@cma_weights EArith (cm_mu (snd xP)))).
    - unfold cma_setup. eapply gives_bind; [apply gives_any|]. intros mode _. eapply gives_bind; [apply gives_any|]. intros [lo up] _.
      eapply gives_bind; [apply gives_any|]. intros pen _. eapply gives_bind; [apply gives_any|]. intros xm _.
      eapply gives_bind; [apply gives_any|]. intros mu _. apply gives_ret. cbn. auto.
    - intros [xmean P0] (Hd & Hw & Hm). cbn [snd] in *. eapply gives_bind; [apply (gives_replicateM _ randn (fun _ => True)), gives_any|].
      intros z [Hz _]. eapply gives_bind; [apply gives_any|]. intros [nout ilim] _. apply gives_ret. cbn. rewrite map_length. auto 12.
  Qed.

  (** C31, ndim <= 5: at the end of every iteration of every run the scaling is still (1, ..., 1), and
      the direction is the one drawn at the start. *)
  Theorem C31_low_dim (A : CMAArgs) w P s0 w0 cb j t : (nd_len (a_bounds (caa A)) <= 5)%nat ->
    vd_prefix A w = (inl (P, s0), w0) -> visited (vd_drv P) cb (fun _ => True) 0 s0 w0 j t ->
    vs_dvec t = repeat (Fin 1) (nd_len (a_bounds (caa A))) /\ vs_vvec t = vs_vvec s0 /\ vs_nv2 t = vs_nv2 s0 /\ vs_vn t = vs_vn s0.
  Proof.
    intros Hd HP HV. pose proof (vd_prefix_gives A _ _ _ HP) as (Hdim & Hw & Hm & Hdv & Hvv & _ & Hn2 & Hn & Hvn & Hvnn). cbn [fst snd] in *.
    set (d := nd_len (a_bounds (caa A))) in *.
    set (Inv := fun s : @VDS ENum => vs_dvec s = repeat (Fin 1) d /\ vs_vvec s = vs_vvec s0 /\ vs_nv2 s = vs_nv2 s0 /\ vs_vn s = vs_vn s0).
    assert (H : Inv t); [|exact H].
    refine (visited_inv (vd_drv P) cb (fun _ => True) (fun _ => Inv) (fun _ => Inv) _ _ 0%Z s0 w0 j t HV _).
    - intros it s (I1 & I2 & I3 & I4). cbn [d_step vd_drv]. unfold vd_step.
      eapply gives_bind; [apply gives_any|]. intros ary _. eapply gives_bind; [apply gives_any|]. intros [[fit valid] pen] _.
      eapply gives_bind; [apply gives_any|]. intros r _. eapply gives_bind; [apply gives_any|]. intros hist _.
      destruct (vd_sigma P s (e_argsort fit)) as [[ps sigma] cond].
      match goal with |- context [vd_update ?a ?b ?c ?c1 ?cmu ?w ?y ?pc ?co ?dv ?vv ?q ?nv ?vn ?nn] =>
        assert (HU : vd_update a b c c1 cmu w y pc co dv vv q nv vn nn = (vv, dv)) end.
      { apply low_update.
        - rewrite Hm, Hdim. apply low_sum. exact Hd.
        - rewrite I1, repeat_length. symmetry. exact Hdim.
        - rewrite I2. exact Hvv. }
      cbn [num_arith ENum] in HU |- *. rewrite HU. apply gives_ret. unfold Inv. cbn [fst vs_dvec vs_vvec vs_nv2 vs_vn].
      split; [exact I1|]. split; [exact I2|]. rewrite I2. split; [symmetry; exact Hn2|]. rewrite Hvn, Hn, Hn2. reflexivity.
    - intros it s HI _. apply gives_ret. exact HI.
    - unfold Inv. rewrite <- Hdim. auto.
  Qed.
End LowDim.

(** ** Every run keeps the scaling positive *)
Lemma cauchy_schwarz (a b : list R) : Rsqr (rdot a b) <= rdot a a * rdot b b.
Proof.
  revert b. induction a as [|x a IH]; intros b.
  - unfold rdot. cbn. unfold Rsqr. lra.
  - destruct b as [|y b]; [unfold rdot; cbn; unfold Rsqr; lra|]. specialize (IH b).
    change (rdot (x :: a) (y :: b)) with (x * y + rdot a b). change (rdot (x :: a) (x :: a)) with (x * x + rdot a a).
    change (rdot (y :: b) (y :: b)) with (y * y + rdot b b).
    pose proof (rdot_self_nonneg a) as HA. pose proof (rdot_self_nonneg b) as HB.
    set (r := rdot a b) in *. set (A := rdot a a) in *. set (B := rdot b b) in *. clearbody r A B.
    assert (H2 : 2 * (x * y) * r <= x * x * B + y * y * A).
    { pose proof (sqrt_pos A). pose proof (sqrt_pos B). pose proof (sqrt_sqrt A HA). pose proof (sqrt_sqrt B HB).
      set (sa := sqrt A) in *. set (sb := sqrt B) in *. clearbody sa sb.
      assert (HR : Rabs r <= sa * sb).
      { rewrite <- (Rabs_right (sa * sb)) by (apply Rle_ge, Rmult_le_pos; assumption).
        apply Rsqr_le_abs_0. unfold Rsqr in *. nra. }
      assert (HR2 : - (sa * sb) <= r <= sa * sb) by (unfold Rabs in HR; destruct (Rcase_abs r); nra).
      destruct (Rle_dec 0 (x * y)).
      - assert (x * y * r <= x * y * (sa * sb)) by (apply Rmult_le_compat_l; lra). pose proof (Rle_0_sqr (x * sb - y * sa)) as Q. unfold Rsqr in Q. nra.
      - assert (- (x * y) * - r <= - (x * y) * (sa * sb)) by (apply Rmult_le_compat_l; lra). pose proof (Rle_0_sqr (x * sb + y * sa)) as Q. unfold Rsqr in Q. nra. }
    unfold Rsqr in *. nra.
Qed.

Lemma rdot_pos_in (a : list R) x : In x a -> x <> 0 -> 0 < rdot a a.
Proof.
  intros Hin Hx. induction a as [|y a IH]; [destruct Hin|]. change (rdot (y :: a) (y :: a)) with (y * y + rdot a a).
  pose proof (rdot_self_nonneg a). destruct Hin as [->|Hin].
  - assert (0 < x * x) by (apply Rsqr_pos_lt in Hx; exact Hx). lra.
  - specialize (IH Hin). nra.
Qed.

(** the Mahalanobis norm of the injected step is positive *)
Lemma mnorm_pos (a v : list R) : 0 < rdot a a -> 0 < rdot a a - rdot a v * rdot a v / (1 + rdot v v).
Proof.
  intros Ha. pose proof (cauchy_schwarz a v) as H. unfold Rsqr in H. pose proof (rdot_self_nonneg v).
  apply Rmult_lt_reg_r with (1 + rdot v v); [lra|]. rewrite Rmult_0_l, Rmult_minus_distr_r.
  unfold Rdiv. rewrite Rmult_assoc, Rinv_l by lra. nra.
Qed.

Lemma cc_E n m : 1 <= n -> 1 <= m -> exists c, @cma_cc EArith (Fin n) (Fin m) = Fin c /\ 0 < c <= 1.
Proof.
  intros Hn Hm. unfold cma_cc, nZ. cbn [nadd nsub nmul ndiv nlit EArith er_add er_mul]. rewrite !div_fin by lra. cbn [er_add].
  replace (Rlit 4 0) with (4 * 1) by (unfold Rlit; cbn; lra). replace (Rlit 2 0) with (2 * 1) by (unfold Rlit; cbn; lra).
  assert (0 < m / n) by (apply Rdiv_lt_0_compat; lra).
  replace (2 * 1 * m / n) with (2 * (m / n)) by (unfold Rdiv; ring). set (k := m / n) in *. clearbody k.
  rewrite div_fin by lra. eexists. split; [reflexivity|]. split; [apply Rdiv_lt_0_compat; lra|].
  apply Rmult_le_reg_r with (n + 4 * 1 + 2 * k); [lra|]. unfold Rdiv. rewrite Rmult_assoc, Rinv_l by lra. lra.
Qed.

Section Positive.
  Context {E : Env ENum} (HN : forall g, isfin (fst (e_randn g))).
  Variable (P : @CMAParams ENum).
  Hypothesis HW : fins (cm_w P).
  Variable m : R.
  Hypothesis Hm : cm_mueff P = Fin m.
  Hypothesis Hm1 : 1 <= m.

  Definition Moved (s : @VDS ENum) : Prop := vs_xmean s <> vs_xold s.
  (** scaling [dv], direction [vv] *)
  Definition Shape (s : @VDS ENum) (dv vv : list R) : Prop :=
    vs_dvec s = fin dv /\ length dv = cm_d P /\ Forall (fun x => 0 < x) dv /\
    vs_vvec s = fin vv /\ length vv = cm_d P /\ 0 < rdot vv vv /\
    vs_nv2 s = Fin (rdot vv vv) /\ vs_nv s = Fin (sqrt (rdot vv vv)) /\ vs_vn s = fin (dirn vv) /\
    vs_vnn s = fin (map (fun x => x * x) (dirn vv)).
  Definition Rest (s : @VDS ENum) : Prop :=
    fins (vs_xmean s) /\ length (vs_xmean s) = cm_d P /\ fins (vs_pc s) /\ length (vs_pc s) = cm_d P /\
    isfin (vs_ps s) /\ isfin (vs_sigma s).
  Definition DxOk (s : @VDS ENum) : Prop := exists dx, vs_dx s = fin dx /\ length dx = cm_d P.
  Definition VPost (s : @VDS ENum) : Prop :=
    (exists dv vv, Shape s dv vv) /\ Rest s /\
    exists xo dx, vs_xold s = fin xo /\ length xo = cm_d P /\ vs_dx s = fin dx /\ length dx = cm_d P /\
      vs_xmean s = fin (map2 Rplus xo dx).
  Definition VInv (s : @VDS ENum) : Prop :=
    (exists dv vv, Shape s dv vv) /\ Rest s /\
    (vs_inj s = true -> exists dx, vs_dx s = fin dx /\ length dx = cm_d P /\ exists x, In x dx /\ x <> 0).

  Lemma dx_moved (xo dx : list R) : length dx = length xo -> map2 Rplus xo dx <> xo -> exists x, In x dx /\ x <> 0.
  Proof.
    revert dx. induction xo as [|y xo IH]; intros [|x dx] Hl H; try discriminate; [exfalso; apply H; reflexivity|].
    destruct (Req_dec x 0) as [->|Hx]; [|exists x; split; [left; reflexivity|exact Hx]].
    destruct (IH dx) as (z & Hz & Hz0).
    - cbn in Hl. lia.
    - intros E1. apply H. cbn. rewrite E1. f_equal. lra.
    - exists z. split; [right; exact Hz|exact Hz0].
  Qed.
  Lemma post_inv s : VPost s -> Moved s -> VInv s.
  Proof.
    intros (HS & HR & xo & dx & E1 & L1 & E2 & L2 & E3) HM. split; [exact HS|]. split; [exact HR|]. intros _.
    exists dx. split; [exact E2|]. split; [exact L2|]. apply (dx_moved xo); [congruence|].
    intros E4. apply HM. rewrite E1, E3, E4. reflexivity.
  Qed.

  Lemma randn_vec_fin n : gives (randn_vec n) (fun z : evec => length z = n /\ fins z).
  Proof. apply gives_replicateM, gives_draw, HN. Qed.

  Lemma norm_fin (z : list er) : fins z -> isfin (@vnorm EArith z).
  Proof.
    intros H. destruct (isfin_fin z H) as [r ->]. unfold vnorm. rewrite vdot_fin. cbn [nsqrt EArith].
    rewrite sqrt_fin by apply rdot_self_nonneg. exact I.
  Qed.
  Lemma upd_fins k (r : list er) (l : list (list er)) : fins r -> Forall (fun y => fins y) l -> Forall (fun y => fins y) (upd k r l).
  Proof.
    intros Hr. revert k. induction l as [|x l IH]; intros k Hl; [destruct k; constructor|].
    inversion Hl; subst. destruct k; cbn; constructor; auto.
  Qed.

  Lemma vd_sample_fin s : VInv s ->
    gives (vd_sample P s) (fun ary : @matrix (@num_arith ENum) => Forall (fun y => fins y) ary /\ (vs_inj s = true -> (2 <= cm_p P)%nat)).
  Proof.
    intros ((dv & vv & Hdv & Ldv & Pdv & Hvv & Lvv & Pvv & Hq & Hnv & Hvn & Hvnn) & _ & HI).
    unfold vd_sample. eapply gives_bind; [apply gives_replicateM, randn_vec_fin|]. intros arz [_ Ha]. cbv zeta.
    change (@num_arith ENum) with EArith. set (k := @nsub EArith (@nsqrt EArith (@nadd EArith (@n1 EArith) (vs_nv2 s))) (@n1 EArith)).
    assert (Hk : isfin k).
    { subst k. rewrite Hq. change (@n1 EArith) with (Fin 1). cbn [nadd nsub nsqrt EArith er_add]. rewrite sqrt_fin by lra. exact I. }
    clearbody k.
    set (f := fun z : list er => @vmul EArith (vs_dvec s) (@vadd EArith z (@vscale EArith k (@vscale EArith (@vdot EArith z (vs_vn s)) (vs_vn s))))).
    assert (Hary : Forall (fun y => fins y) (map f arz)).
    { apply Forall_forall. intros y Hy. apply in_map_iff in Hy. destruct Hy as (z & <- & Hz). rewrite Forall_forall in Ha.
      destruct (Ha z Hz) as [_ Hzf]. unfold f. rewrite Hdv, Hvn.
      apply fins_mul; [apply fin_isfin|]. apply fins_add; [exact Hzf|]. apply fins_scale; [exact Hk|].
      apply fins_scale; [apply fins_vdot; [exact Hzf|apply fin_isfin]|apply fin_isfin]. }
    destruct (vs_inj s) eqn:EI.
    - destruct (HI eq_refl) as (dx & Hdx & Ldx & x & Hx & Hx0).
      eapply gives_bind; [apply randn_vec_fin|]. intros z [_ Hz]. eapply gives_bind; [apply gives_raise_if|]. intros u Hp. cbv beta in Hp.
      apply gives_ret. split; [|intros _; apply Nat.ltb_ge; exact Hp].
      assert (HD : @vdiv EArith (vs_dx s) (vs_dvec s) = fin (map2 Rdiv dx dv)).
      { rewrite Hdx, Hdv. assert (L : length dx = length dv) by congruence. clear - L Pdv. revert dv L Pdv.
        unfold vdiv. induction dx as [|a dx IH]; intros [|b dv] L Pdv; try discriminate; [reflexivity|].
        inversion Pdv; subst. cbn [map map2]. rewrite IH by (try assumption; cbn in L; lia). f_equal. apply div_fin. lra. }
      assert (HA : 0 < rdot (map2 Rdiv dx dv) (map2 Rdiv dx dv)).
      { assert (L : length dx = length dv) by congruence. clear - L Pdv Hx Hx0.
        assert (H : exists y, In y (map2 Rdiv dx dv) /\ y <> 0).
        { revert dv L Pdv. induction dx as [|a dx IH]; intros [|b dv] L Pdv; try discriminate; [destruct Hx|].
          inversion Pdv; subst. destruct Hx as [->|Hx].
          - exists (x / b). split; [left; reflexivity|]. unfold Rdiv. apply Rmult_integral_contrapositive_currified; [exact Hx0|].
            apply Rinv_neq_0_compat. lra.
          - destruct (IH Hx dv) as (y & Hy & Hy0); [cbn in L; lia|assumption|]. exists y. split; [right; exact Hy|exact Hy0]. }
        destruct H as (y & Hy & Hy0). exact (rdot_pos_in _ y Hy Hy0). }
      pose proof (mnorm_pos _ vv HA) as HM.
      match goal with |- Forall _ (upd 1 (vscale _ ?x) (upd 0 ?x _)) => set (dy := x) end.
      assert (Hdy : fins dy).
      { subst dy. apply fins_scale; [|rewrite Hdx; apply fin_isfin]. apply fin_div; [apply norm_fin; exact Hz|].
        rewrite HD, Hvv, Hq.
        assert (E1 : map (@nsq EArith) (fin (map2 Rdiv dx dv)) = fin (map (fun x => x * x) (map2 Rdiv dx dv))) by (apply map_fin; intros; reflexivity).
        rewrite E1, vsum_fin, vdot_fin. change (@n1 EArith) with (Fin 1). unfold nsq. cbn [nadd nsub nmul ndiv nsqrt EArith er_mul er_add].
        rewrite div_fin by lra. cbn [er_sub].
        assert (E2 : rsum (map (fun x => x * x) (map2 Rdiv dx dv)) = rdot (map2 Rdiv dx dv) (map2 Rdiv dx dv)).
        { unfold rdot. f_equal. clear. induction (map2 Rdiv dx dv) as [|a l IH]; [reflexivity|]. cbn. f_equal. exact IH. }
        rewrite E2. rewrite sqrt_fin by (apply Rlt_le; exact HM). apply sqrt_lt_R0. exact HM. }
      apply upd_fins; [apply fins_scale; [exact I|exact Hdy]|]. apply upd_fins; [exact Hdy|exact Hary].
    - apply gives_ret. split; [exact Hary|discriminate].
  Qed.

  (** If the mean stood still exactly, the two injected points are not numbers. *)
  Theorem C31_still s dv vv : Shape s dv vv -> vs_inj s = true -> vs_dx s = repeat (Fin 0) (cm_d P) ->
    gives (vd_sample P s) (fun ary : @matrix (@num_arith ENum) => nth 0 ary [] = repeat NaN (cm_d P) /\ nth 1 ary [] = repeat NaN (cm_d P)).
  Proof.
    intros (Hdv & Ldv & Pdv & Hvv & Lvv & Pvv & Hq & Hnv & Hvn & Hvnn) Hi Hdx.
    unfold vd_sample. eapply gives_bind; [apply gives_replicateM, randn_vec_fin|]. intros arz [La Ha]. cbv zeta. rewrite Hi.
    eapply gives_bind; [apply randn_vec_fin|]. intros z [_ Hz]. cbv beta in Hz. eapply gives_bind; [apply gives_raise_if|]. intros u Hp. cbv beta in Hp.
    apply gives_ret. change (@num_arith ENum) with EArith.
    match goal with |- context [upd 0 ?x _] => set (dy := x) end.
    assert (Hdy : dy = repeat NaN (cm_d P)).
    { assert (HD : @vdiv EArith (vs_dx s) (vs_dvec s) = fin (repeat 0 (cm_d P))).
      { rewrite Hdx, Hdv. rewrite <- Ldv. clear - Pdv. unfold vdiv. induction dv as [|a dv IH]; [reflexivity|]. inversion Pdv; subst.
        cbn [map map2 length repeat]. rewrite IH by assumption. f_equal. cbn [ndiv EArith]. rewrite div_fin by lra. f_equal. unfold Rdiv. lra. }
      assert (HS : @vsum EArith (map (@nsq EArith) (fin (repeat 0 (cm_d P)))) = Fin 0).
      { rewrite (map_fin (@nsq EArith) (fun x => x * x)) by reflexivity. rewrite vsum_fin. f_equal.
        clear. induction (cm_d P) as [|d IH]; cbn; [reflexivity|]. rewrite IH. lra. }
      assert (HT : rdot (repeat 0 (cm_d P)) vv = 0).
      { clear. revert vv. unfold rdot. induction (cm_d P) as [|d IH]; intros [|x vv]; cbn; try reflexivity. rewrite IH. lra. }
      destruct (isfin_fin z Hz) as [zr ->]. subst dy. unfold vnorm. rewrite HD, HS, Hvv, Hq, Hdx, !vdot_fin, HT.
      change (@n1 EArith) with (Fin 1). unfold nsq. cbn [nadd nsub nmul ndiv nsqrt EArith er_mul er_add]. rewrite (div_fin (0 * 0)) by lra.
      cbn [er_sub]. rewrite !sqrt_fin by (try apply rdot_self_nonneg; unfold Rdiv; lra).
      replace (0 - 0 * 0 / (1 + rdot vv vv)) with 0 by (unfold Rdiv; lra). rewrite sqrt_0.
      assert (HX : er_div (Fin (sqrt (rdot zr zr))) (Fin 0) = PInf \/ er_div (Fin (sqrt (rdot zr zr))) (Fin 0) = NaN).
      { cbn. destruct (Req_EM_T 0 0); [|lra]. pose proof (sqrt_pos (rdot zr zr)). unfold er_sgn.
        repeat match goal with |- context [Rlt_dec ?a ?b] => destruct (Rlt_dec a b) end; auto; lra. }
      unfold vscale. clear - HX. induction (cm_d P) as [|d IH]; cbn [repeat map]; [reflexivity|]. f_equal; [|exact IH].
      destruct HX as [-> | ->]; [|reflexivity]. cbn. unfold er_sgn.
      repeat match goal with |- context [Rlt_dec ?a ?b] => destruct (Rlt_dec a b) end; try lra; reflexivity. }
    clearbody dy. subst dy. apply Nat.ltb_ge in Hp.
    destruct arz as [|r0 [|r1 arz]]; cbn [length] in La; [lia|lia|]. cbn [map upd nth]. split; [reflexivity|].
    clear. unfold vscale. induction (cm_d P) as [|d IH]; cbn [repeat map]; [reflexivity|]. f_equal. exact IH.
  Qed.

  Lemma vd_sigma_fin s index : isfin (vs_ps s) -> isfin (vs_sigma s) -> (0 < cm_d P)%nat -> (vs_inj s = true -> (2 <= cm_p P)%nat) ->
    isfin (fst (fst (vd_sigma P s index))) /\ isfin (snd (fst (vd_sigma P s index))).
  Proof.
    intros Hp Hs Hd H. unfold vd_sigma. destruct (vs_inj s); [|split; [exact Hp|exact Hs]]. specialize (H eq_refl).
    cbn [fst snd]. change (@num_arith ENum) with EArith.
    set (a := @ndiv EArith (@nZ EArith (Z.of_nat (index_of 1 index) - Z.of_nat (index_of 0 index))) (@nsub EArith (@nN EArith (cm_p P)) (@n1 EArith))).
    assert (Ha : isfin a).
    { subst a. rewrite nN_E. apply fin_div; [exact I|]. change (@n1 EArith) with (Fin 1). cbn. apply le_INR in H. cbn in H. lra. }
    clearbody a. assert (HP : isfin (@nadd EArith (vs_ps s) (@nmul EArith (@nlit EArith 3 (-1)) (@nsub EArith a (vs_ps s))))).
    { destruct (vs_ps s), a; try contradiction. exact I. }
    split; [exact HP|]. set (ps := @nadd EArith (vs_ps s) (@nmul EArith (@nlit EArith 3 (-1)) (@nsub EArith a (vs_ps s)))) in *. clearbody ps.
    assert (HQ : isfin (@ndiv EArith ps (@nsqrt EArith (@nN EArith (cm_d P))))).
    { rewrite nN_E. cbn [ndiv nsqrt EArith]. assert (0 < INR (cm_d P)) by (apply lt_0_INR; exact Hd).
      rewrite sqrt_fin by lra. apply fin_div; [exact HP|]. apply sqrt_lt_R0. assumption. }
    set (q := @ndiv EArith ps (@nsqrt EArith (@nN EArith (cm_d P)))) in *. clearbody q. destruct q; try contradiction. destruct (vs_sigma s); try contradiction. exact I.
  Qed.

  Lemma fins_sel (ary : list (list er)) top : Forall (fun y => fins y) ary -> Forall (fun y => fins y) (map (fun k => nth k ary []) top).
  Proof.
    intros H. apply Forall_forall. intros y Hy. apply in_map_iff in Hy. destruct Hy as (k & <- & _).
    destruct (nth_in_or_default k ary []) as [Hin| ->]; [|constructor]. rewrite Forall_forall in H. exact (H _ Hin).
  Qed.

  Lemma vmat_len d (w : list er) mm : length (@vmat EArith d w mm) = d.
  Proof. unfold vmat. rewrite map_length, seq_length. reflexivity. Qed.

  (** One iteration: the new scaling is within 70 percent of the old one. *)
  Lemma vd_step_fin it s : VInv s -> gives (vd_step P it s) (fun r =>
    VPost (fst r) /\ exists dv dv', vs_dvec s = fin dv /\ vs_dvec (fst r) = fin dv' /\ Forall2 within70 dv dv').
  Proof.
    intros HI. pose proof HI as ((dv & vv & Hdv & Ldv & Pdv & Hvv & Lvv & Pvv & Hq & Hnv & Hvn & Hvnn) & (Hx & Lx & Hpc & Lpc & Hps & Hsg) & _).
    assert (Hd : (0 < cm_d P)%nat).
    { destruct vv; [unfold rdot in Pvv; cbn in Pvv; lra|]. rewrite <- Lvv. cbn. lia. }
    assert (HdR : 1 <= INR (cm_d P)) by (apply (le_INR 1); lia).
    unfold vd_step. cbv zeta. eapply gives_bind; [apply vd_sample_fin, HI|]. intros ary [Hary Hp2]. cbv beta in Hary, Hp2.
    eapply gives_bind; [apply gives_any|]. intros [[fit valid] pen] _.
    eapply gives_bind; [apply gives_any|]. intros r _. eapply gives_bind; [apply gives_any|]. intros hist _.
    pose proof (vd_sigma_fin s (e_argsort fit) Hps Hsg Hd Hp2) as [Hps' Hsg'].
    destruct (vd_sigma P s (e_argsort fit)) as [[ps sigma] cond]. cbn [fst snd] in Hps', Hsg'.
    change (@num_arith ENum) with EArith.
    set (top := firstn (cm_mu P) (e_argsort fit)).
    set (arx := map (fun y : list er => @vadd EArith (vs_xmean s) (@vscale EArith (vs_sigma s) y)) ary).
    assert (Harx : Forall (fun y => fins y) arx).
    { apply Forall_forall. intros y Hy. apply in_map_iff in Hy. destruct Hy as (z & <- & Hz). rewrite Forall_forall in Hary.
      apply fins_add; [exact Hx|]. apply fins_scale; [exact Hsg|exact (Hary z Hz)]. }
    set (ysel := map (fun k : nat => nth k ary []) top).
    assert (Hysel : Forall (fun y => fins y) ysel) by (apply fins_sel; exact Hary).
    set (dx := @vsub EArith (@vmat EArith (cm_d P) (cm_w P) (map (fun k : nat => nth k arx []) top)) (@vscale EArith (@vsum EArith (cm_w P)) (vs_xmean s))).
    assert (Hdx : fins dx /\ length dx = cm_d P).
    { split.
      - apply fins_sub; [apply fins_vmat; [exact HW|apply fins_sel; exact Harx]|]. apply fins_scale; [apply fins_vsum; exact HW|exact Hx].
      - subst dx. unfold vsub. rewrite map2_length, vmat_len. unfold vscale. rewrite map_length. change (length (vs_xmean s)) with (@length er (vs_xmean s)). elia. }
    destruct Hdx as [Hdx Ldx].
    destruct (cc_E (INR (cm_d P)) m HdR Hm1) as (c & Hc & Hc01).
    rewrite Hm, nN_E, Hc.
    set (pc0 := map (fun x : er => @nmul EArith x (@nsub EArith (@n1 EArith) (Fin c))) (vs_pc s)).
    assert (Hpc0 : fins pc0 /\ length pc0 = cm_d P).
    { split; [|subst pc0; rewrite map_length; exact Lpc]. apply fins_map; [|exact Hpc]. intros x Hxf. destruct x; try contradiction. exact I. }
    destruct Hpc0 as [Hpc0 Lpc0].
    match goal with |- context [vd_update _ _ _ _ _ _ _ ?p] => set (pc := p) end.
    assert (Hpc' : fins pc /\ length pc = cm_d P).
    { subst pc. destruct cond.
      - assert (HK : isfin (@nsqrt EArith (@nmul EArith (@nmul EArith (Fin c) (@nsub EArith (@nZ EArith 2) (Fin c))) (Fin m)))).
        { unfold nZ. cbn [nsqrt nmul nsub nlit EArith er_mul er_sub]. replace (Rlit 2 0) with 2 by (unfold Rlit; cbn; lra).
          rewrite sqrt_fin; [exact I|]. apply Rmult_le_pos; [|lra]. apply Rmult_le_pos; lra. }
        split.
        + apply fins_add; [exact Hpc0|]. apply fins_scale; [exact HK|]. apply fins_vmat; [exact HW|exact Hysel].
        + unfold vadd. rewrite map2_length. unfold vscale. rewrite !map_length. transitivity (Nat.min (cm_d P) (cm_d P)); [apply f_equal2; [exact Lpc|exact (vmat_len _ _ _)]|apply Nat.min_id].
      - split; [|rewrite map_length; exact Lpc0]. apply fins_map; [|exact Hpc0]. intros x Hxf. destruct x; try contradiction. exact I. }
    clearbody pc. destruct Hpc' as [Hpc' Lpc'].
    destruct (cmu_E (INR (cm_d P)) m) as [Hc1 Hcmu]; [lra|lra|].
    destruct (vd_update_fin (cm_d P) (@vd_c1 EArith (Fin (INR (cm_d P))) (Fin m)) (@vd_cmu EArith (Fin (INR (cm_d P))) (Fin m)) (cm_w P) ysel pc cond dv vv)
      as (vv' & dv' & HU & Lv' & Ld' & H70 & Pv'); try assumption; try (rewrite Hc1; exact I); try (rewrite Hcmu; exact I).
    match goal with |- gives (match ?X with pair _ _ => _ end) _ =>
      assert (HU' : X = (fin vv', fin dv')) by (rewrite Hdv, Hvv, Hq, Hnv, Hvn, Hvnn; exact HU); rewrite HU'; clear HU HU' end.
    apply gives_ret. cbn [fst].
    destruct (isfin_fin _ Hdx) as [dxr Edx]. destruct (isfin_fin _ Hx) as [xr Exr].
    assert (Lxr : length xr = cm_d P) by (rewrite Exr in Lx; rewrite map_length in Lx; exact Lx).
    assert (Ldxr : length dxr = cm_d P) by (rewrite Edx in Ldx; rewrite map_length in Ldx; exact Ldx).
    assert (EX : @vadd EArith (vs_xmean s) dx = fin (map2 Rplus xr dxr)).
    { rewrite Exr, Edx. apply map2_fin. reflexivity. }
    split; [|exists dv, dv'; split; [exact Hdv|split; [reflexivity|exact H70]]].
    split; [|split].
    - exists dv', vv'. unfold Shape. cbn [vs_dvec vs_vvec vs_nv2 vs_nv vs_vn vs_vnn].
      assert (E1 : @vdot EArith (fin vv') (fin vv') = Fin (rdot vv' vv')) by apply vdot_fin.
      rewrite E1. cbn [nsqrt EArith]. rewrite sqrt_fin by lra.
      assert (E2 : map (fun x : er => @ndiv EArith x (Fin (sqrt (rdot vv' vv')))) (fin vv') = fin (dirn vv')).
      { apply map_fin. intros x _. apply div_fin. apply Rgt_not_eq, sqrt_lt_R0. exact Pv'. }
      split; [reflexivity|]. split; [exact Ld'|]. split.
      { clear - H70 Pdv. induction H70 as [|a b l l' Hab H IH]; [constructor|]. inversion Pdv; subst. constructor; [|auto].
        unfold within70 in Hab. lra. }
      split; [reflexivity|]. split; [exact Lv'|]. split; [exact Pv'|]. split; [reflexivity|]. split; [reflexivity|]. split; [exact E2|].
      transitivity (map (@nsq EArith) (fin (dirn vv'))); [exact (f_equal (map (@nsq EArith)) E2)|apply map_fin; reflexivity].
    - unfold Rest. cbn [vs_xmean vs_pc vs_ps vs_sigma].
      split; [change (fins (@vadd EArith (vs_xmean s) dx)); rewrite EX; apply fin_isfin|].
      split; [change (length (@vadd EArith (vs_xmean s) dx) = cm_d P); rewrite EX, map_length, map2_length, Lxr, Ldxr; apply Nat.min_id|].
      split; [exact Hpc'|]. split; [exact Lpc'|]. split; [exact Hps'|exact Hsg'].
    - cbn [vs_xold vs_dx vs_xmean]. exists xr, dxr.
      split; [exact Exr|]. split; [exact Lxr|]. split; [exact Edx|]. split; [exact Ldxr|exact EX].
  Qed.

  (** The bounds on the scaling after [n] iterations *)
  Definition Scaled (n : nat) (s : @VDS ENum) : Prop := exists dv, vs_dvec s = fin dv /\ length dv = cm_d P /\
    Forall (fun x => (3 / 10) ^ n <= x <= (17 / 10) ^ n) dv.

  Theorem vd_visited cb s0 w0 j t : VInv s0 -> vs_dvec s0 = repeat (Fin 1) (cm_d P) ->
    visited (vd_drv P) cb Moved 0 s0 w0 j t -> (0 < j)%Z /\ VPost t /\ Scaled (Z.to_nat j) t.
  Proof.
    intros HI H1 HV.
    refine (visited_inv (vd_drv P) cb Moved (fun it s => (0 <= it)%Z /\ VInv s /\ Scaled (Z.to_nat it) s)
      (fun it s => (0 < it)%Z /\ VPost s /\ Scaled (Z.to_nat it) s) _ _ 0%Z s0 w0 j t HV _).
    - intros it s (Hit & Hs & dv & E1 & L1 & HF). eapply gives_conseq; [apply vd_step_fin; exact Hs|].
      intros r (HP & dv0 & dv' & E2 & E3 & H70). split; [lia|]. split; [exact HP|].
      assert (dv0 = dv) by (apply fin_inj; rewrite <- E1, <- E2; reflexivity). subst dv0.
      exists dv'. split; [exact E3|]. split; [rewrite <- L1; symmetry; clear - H70; induction H70 as [|? ? ? ? _ _ IH]; cbn; [reflexivity|congruence]|].
      replace (Z.to_nat (it + 1)) with (S (Z.to_nat it)) by lia. clear - H70 HF.
      induction H70 as [|a b l l' Hab H IH]; [constructor|]. inversion HF; subst. constructor; [|auto].
      unfold within70 in Hab. cbn [pow]. lra.
    - intros it s (Hit & HP & HS) HM. apply gives_ret. split; [lia|]. split; [apply post_inv; assumption|exact HS].
    - split; [lia|]. split; [exact HI|]. exists (repeat 1 (cm_d P)). split; [rewrite H1; clear; induction (cm_d P) as [|d IH]; cbn; [reflexivity|f_equal; exact IH]|].
      split; [apply repeat_length|]. apply Forall_forall. intros x Hx. apply repeat_spec in Hx. subst. cbn. lra.
  Qed.
End Positive.

(** ** The runs of vdcma *)
Section Run.
  Context {E : Env ENum} (HE : EnvOK) (HN : forall g, isfin (fst (e_randn g))).

  (** Arguments with finite numbers and a box with non-empty interior; [mu] is [int(muperc * popsize)]. *)
  Record FiniteArgs (A : @CMAArgs ENum) (rows : list (list er)) (sg mp : R) : Prop := {
    fa_bounds : a_bounds (caa A) = @D2 EArith 2 rows;
    fa_box : Forall (fun r => exists l u, r = [Fin l; Fin u] /\ l < u) rows;
    fa_x0 : forall x, a_x0 (caa A) = Some x -> exists v, x = @D1 EArith (fin v) /\ length v = length rows;
    fa_sigma : caa_sigma A = Fin sg;
    fa_muperc : caa_muperc A = Fin mp;
    fa_mu : 1 <= mp * IZR (a_popsize (caa A)) }.

  Lemma vdiv_len (a b : list er) d : length a = d -> length b = d -> length (@vdiv EArith a b) = d.
  Proof. intros H H0. unfold vdiv. rewrite map2_length. transitivity (Nat.min d d); [apply f_equal2; [exact H|exact H0]|apply Nat.min_id]. Qed.

  Lemma mean_fin A rows sg mp : FiniteArgs A rows sg mp -> forall lo up : list er,
    lo = map (fun r => nth 0 r (Fin 0)) rows -> up = map (fun r => nth 1 r (Fin 0)) rows ->
    gives (match a_x0 (caa A) with
           | None => replicateM (length rows) (uniform (@nZ EArith (-1)) (@nZ EArith 1))
           | Some x => ret (standardize (cma_xm lo up) (cma_xstd lo up) (nd_vec x)) end)
      (fun x : evec => fins x /\ length x = length rows).
  Proof.
    intros HA lo up Hlo Hup. destruct (a_x0 (caa A)) as [x|] eqn:EX.
    - destruct (fa_x0 _ _ _ _ HA x EX) as (v & -> & Lv). apply gives_ret. cbn [nd_vec].
      assert (Hm : fins (@cma_xm ENum lo up) /\ Forall posf (@cma_xstd ENum lo up) /\ length (@cma_xm ENum lo up) = length rows /\ length (@cma_xstd ENum lo up) = length rows).
      { rewrite Hlo, Hup. pose proof (fa_box _ _ _ _ HA) as HB. clear - HB. unfold cma_xm, cma_xstd.
        change (@num_arith ENum) with EArith. rewrite !map2_length, !map_length, Nat.min_id.
        split; [|split; [|split; reflexivity]]; induction HB as [|r rows (l & u & -> & Hlu) HB IH]; cbn [map map2 nth]; constructor; try exact IH.
        - exact I.
        - cbn. unfold Rlit. cbn. lra. }
      destruct Hm as (H1 & H2 & L1 & L2). unfold standardize. change (@num_arith ENum) with EArith. split.
      + apply fins_vdiv; [|exact H2]. apply fins_sub; [apply fin_isfin|exact H1].
      + apply vdiv_len; [|exact L2]. unfold vsub. rewrite map2_length, map_length.
        transitivity (Nat.min (length rows) (length rows)); [apply f_equal2; [exact Lv|exact L1]|apply Nat.min_id].
    - eapply gives_conseq; [apply (gives_replicateM _ _ (fun x : er => isfin x))|].
      + unfold uniform. eapply gives_bind; [apply (gives_draw _ (fun x : er => isfin x))|].
        * intros r. destruct (eo_rand HE r) as [H0 H1]. destruct (unit_draw _ H0 H1) as (q & Eq & _).
          change (isfin (fst (e_rand r) : er)). generalize (Eq : (fst (e_rand r) : er) = Fin q). intros Eq'. destruct (fst (e_rand r)); [exact I| | |]; discriminate Eq'.
        * intros u Hu. cbv beta in Hu. apply gives_ret. destruct u; try contradiction. exact I.
      + intros l [Hl HF]. split; [exact HF|exact Hl].
  Qed.

  Lemma trunc_pos r : 1 <= r -> exists k, er_trunc (Fin r) = Some k /\ (1 <= k)%Z.
  Proof.
    intros H. cbn. destruct (Rlt_dec r 0); [lra|]. eexists. split; [reflexivity|]. unfold Rfloor.
    pose proof (base_Int_part r) as [_ H2]. apply (Zlt_le_succ 0). apply lt_IZR. lra.
  Qed.

  Lemma vd_prefix_start A rows sg mp : FiniteArgs A rows sg mp -> gives (vd_prefix A) (fun Ps =>
    let P := fst Ps in let s := snd Ps in
    cm_d P = length rows /\ (1 <= cm_mu P)%nat /\ Rest P s /\ fins (vs_vvec s)).
  Proof.
    intros HA. unfold vd_prefix.
    eapply gives_bind with (R := fun xP : evec * @CMAParams ENum => cm_d (snd xP) = length rows /\ (1 <= cm_mu (snd xP))%nat /\
      fins (fst xP) /\ length (fst xP) = length rows).
    - unfold cma_setup. eapply gives_bind; [apply gives_any|]. intros mode _. rewrite (fa_bounds _ _ _ _ HA). cbn [nd_len unpack_bounds].
      eapply gives_bind; [apply gives_ret with (Q := fun lu : evec * evec => fst lu = map (fun r : list er => nth 0 r (Fin 0)) rows /\ snd lu = map (fun r : list er => nth 1 r (Fin 0)) rows)|].
      { cbn [fst snd]. split; apply map_ext; intros r; f_equal; cbn; unfold Rlit; cbn; f_equal; lra. }
      intros [lo up] [Hlo Hup]. cbn [fst snd] in Hlo, Hup.
      eapply gives_bind; [apply gives_any|]. intros pen _.
      eapply gives_bind; [apply (mean_fin A rows sg mp HA lo up Hlo Hup)|]. intros xm [Hx Lx].
      eapply gives_bind with (R := fun mu : Z => (1 <= mu)%Z).
      + apply gives_orelse. intros k Hk. rewrite (fa_muperc _ _ _ _ HA) in Hk.
        destruct (trunc_pos _ (fa_mu _ _ _ _ HA)) as (k' & Ek & Hk'). unfold nZ in Hk. cbn [num_arith ENum EArith nmul nlit ntrunc er_mul] in Hk.
        replace (Rlit (a_popsize (caa A)) 0) with (IZR (a_popsize (caa A))) in Hk by (unfold Rlit; cbn; lra).
        rewrite Ek in Hk. injection Hk as <-. exact Hk'.
      + intros mu Hmu. apply gives_ret. cbn [fst snd cm_d cm_mu]. split; [reflexivity|]. split; [lia|]. split; [exact Hx|exact Lx].
    - intros [xmean P0] (Hd & Hmu & Hx & Lx). cbn [fst snd] in *.
      eapply gives_bind; [apply randn_vec_fin; exact HN|]. intros z [Lz Hz]. cbv beta in Lz, Hz.
      eapply gives_bind; [apply gives_any|]. intros [nout ilim] _. apply gives_ret. cbn [fst snd cm_d cm_mu vs_vvec].
      split; [exact Hd|]. split; [exact Hmu|]. split.
      + unfold Rest. cbn [vs_xmean vs_pc vs_ps vs_sigma cm_d]. rewrite (fa_sigma _ _ _ _ HA).
        split; [exact Hx|]. split; [rewrite Hd; exact Lx|]. split; [apply (fins_repeat0 (cm_d P0))|]. split; [apply repeat_length|]. split; exact I.
      + destruct (cm_d P0) as [|d] eqn:Ed.
        * destruct z; [constructor|discriminate].
        * apply fins_map; [|exact Hz]. intros x Hxf. rewrite nN_E. rewrite sqrt_fin by apply pos_INR.
          apply fin_div; [exact Hxf|]. apply sqrt_lt_R0, lt_0_INR. lia.
  Qed.

  Lemma vd_start A rows sg mp w P s0 w0 : FiniteArgs A rows sg mp -> vd_prefix A w = (inl (P, s0), w0) ->
    (exists x, In x (vs_vvec s0) /\ x <> Fin 0) ->
    cm_d P = length rows /\ vs_dvec s0 = repeat (Fin 1) (cm_d P) /\ fins (cm_w P) /\
    (exists m, cm_mueff P = Fin m /\ 1 <= m) /\ VInv P s0.
  Proof.
    intros HA HP (x & Hx & Hx0). destruct (vd_prefix_gives A _ _ _ HP) as (Hd & Hw & Hm & Hdv & Lv & Hi & Hq & Hn & Hvn & Hnn).
    destruct (vd_prefix_start A rows sg mp HA _ _ _ HP) as (Hd2 & Hmu & HR & Hf). cbn [fst snd] in *.
    split; [exact Hd2|]. split; [exact Hdv|]. split; [rewrite Hw, cma_weights_E by exact Hmu; apply fin_isfin|].
    split.
    { rewrite Hm, cma_mueff_E by exact Hmu. eexists. split; [reflexivity|]. apply (C27_mueff _ Hmu). }
    split; [|split; [exact HR|rewrite Hi; discriminate]].
    destruct (isfin_fin _ Hf) as [vv Evv]. exists (repeat 1 (cm_d P)), vv.
    assert (Pvv : 0 < rdot vv vv).
    { rewrite Evv in Hx. apply in_map_iff in Hx. destruct Hx as (r & <- & Hr). apply (rdot_pos_in vv r Hr). congruence. }
    assert (E1 : vs_nv2 s0 = Fin (rdot vv vv)) by (rewrite Hq, Evv; apply vdot_fin).
    assert (E2 : vs_nv s0 = Fin (sqrt (rdot vv vv))) by (rewrite Hn, E1; apply sqrt_fin; lra).
    assert (E3 : vs_vn s0 = fin (dirn vv)).
    { rewrite Hvn, E2, Evv. apply map_fin. intros y _. apply div_fin. apply Rgt_not_eq, sqrt_lt_R0. exact Pvv. }
    split; [rewrite Hdv; clear; induction (cm_d P) as [|d IH]; cbn; [reflexivity|f_equal; exact IH]|].
    split; [apply repeat_length|].
    split; [apply Forall_forall; intros y Hy; apply repeat_spec in Hy; subst; lra|].
    split; [exact Evv|]. split; [rewrite Evv in Lv; rewrite map_length in Lv; exact Lv|]. split; [exact Pvv|].
    split; [exact E1|]. split; [exact E2|]. split; [exact E3|]. rewrite Hnn, E3. apply map_fin. reflexivity.
  Qed.

  (** C31.  While the mean moves, the scaling after iteration [j] consists of numbers between
      0.3^j and 1.7^j.  (The first direction drawn must not be the zero vector.) *)
  Theorem C31_positive A rows sg mp w P s0 w0 cb j t : FiniteArgs A rows sg mp ->
    vd_prefix A w = (inl (P, s0), w0) -> (exists x, In x (vs_vvec s0) /\ x <> Fin 0) ->
    visited (vd_drv P) cb Moved 0 s0 w0 j t ->
    exists dv : list R, vs_dvec t = map Fin dv /\ length dv = length rows /\
      Forall (fun x => 0 < x /\ (3 / 10) ^ Z.to_nat j <= x <= (17 / 10) ^ Z.to_nat j) dv.
  Proof.
    intros HA HP Hv HV. destruct (vd_start _ _ _ _ _ _ _ _ HA HP Hv) as (Hd & Hdv & HW & (m & Hm & Hm1) & HI).
    destruct (vd_visited HN P HW m Hm Hm1 cb s0 w0 j t HI Hdv HV) as (_ & _ & dv & E1 & L1 & HF).
    exists dv. split; [exact E1|]. split; [congruence|]. eapply Forall_impl; [|exact HF]. intros x Hx.
    split; [|exact Hx]. assert (0 < (3 / 10) ^ Z.to_nat j) by (apply pow_lt; lra). lra.
  Qed.

  (** C31.  One more iteration changes each component by at most 70 percent. *)
  Theorem C31_step A rows sg mp w P s0 w0 cb j t w1 t' st w2 : FiniteArgs A rows sg mp ->
    vd_prefix A w = (inl (P, s0), w0) -> (exists x, In x (vs_vvec s0) /\ x <> Fin 0) ->
    visited (vd_drv P) cb Moved 0 s0 w0 j t -> vs_xmean t <> vs_xold t ->
    vd_step P (j + 1) t w1 = (inl (t', st), w2) ->
    exists dv dv' : list R, vs_dvec t = map Fin dv /\ vs_dvec t' = map Fin dv' /\
      Forall2 (fun a b => Rabs (b - a) <= 7 / 10 * a) dv dv'.
  Proof.
    intros HA HP Hv HV HM HS. destruct (vd_start _ _ _ _ _ _ _ _ HA HP Hv) as (Hd & Hdv & HW & (m & Hm & Hm1) & HI).
    destruct (vd_visited HN P HW m Hm Hm1 cb s0 w0 j t HI Hdv HV) as (_ & HPo & _).
    destruct (vd_step_fin HN P HW m Hm Hm1 (j + 1)%Z t (post_inv P t HPo HM) _ _ _ HS) as (_ & dv & dv' & E1 & E2 & H70).
    exists dv, dv'. split; [exact E1|]. split; [exact E2|]. clear - H70.
    induction H70 as [|a b l l' Hab H IH]; constructor; [|exact IH]. unfold within70 in Hab. apply Rabs_le. lra.
  Qed.
End Run.
