(** C30: the boundary penalty of CMA-ES and VD-CMA (cmaes/_constraints.py) in exact arithmetic. *)
From Coq Require Import Reals Lra Psatz Permutation.
From Verif Require Import Base Num NumR NumE Env Common DE Mat CMAES VDCMA Weights Hoare EvalRules Inst Safe Feas FeasPso VdReal Visit VdRun Cov CmReal CmRun.
Open Scope R_scope.

(** a non-negative finite number *)
Definition nnf (x : er) : Prop := match x with Fin r => 0 <= r | _ => False end.
Lemma nnf_fin x : nnf x -> isfin x.
Proof. destruct x; cbn; auto. Qed.
Lemma posf_nnf x : posf x -> nnf x.
Proof. destruct x; cbn; auto. lra. Qed.
Lemma nnf_list (l : list er) : Forall nnf l -> exists r, l = fin r /\ Forall (fun x => 0 <= x) r.
Proof.
  induction 1 as [|x l Hx Hl (r & -> & Hr)]; [exists []; split; [reflexivity|constructor]|].
  destruct x as [a| | |]; try contradiction. exists (a :: r). split; [reflexivity|constructor; assumption].
Qed.
Lemma posf_list (l : list er) : Forall posf l -> exists r, l = fin r /\ Forall (fun x => 0 < x) r.
Proof.
  induction 1 as [|x l Hx Hl (r & -> & Hr)]; [exists []; split; [reflexivity|constructor]|].
  destruct x as [a| | |]; try contradiction. exists (a :: r). split; [reflexivity|constructor; assumption].
Qed.
Lemma vmin_in (l : list er) : l <> [] -> In (@vmin ENum l) l.
Proof.
  destruct l as [|a l]; [contradiction|]. intros _. cbn [vmin].
  enough (H : forall l a, In (fold_left (@np_min2 ENum) l a) (a :: l)) by apply H.
  clear. induction l as [|b l IH]; intros a; [left; reflexivity|]. cbn [fold_left].
  destruct (IH (@np_min2 ENum a b)) as [H|H]; [|right; right; exact H].
  unfold np_min2 in H at 1. repeat match type of H with context [if ?c then _ else _] => destruct c end; rewrite <- H; [left|left|right; left]; reflexivity.
Qed.

(** the values that numpy documents *)
Section Contracts.
  Context {E : Env ENum}.
  Definition PctOK : Prop := forall (v : list er) q1 q2, v <> [] -> fins v -> 0 <= q1 <= q2 -> q2 <= 100 ->
    exists a b, e_percentile v (Fin q1) = Fin a /\ e_percentile v (Fin q2) = Fin b /\ a <= b.
  Definition MedOK : Prop := forall v : list er, v <> [] -> Forall nnf v -> nnf (e_median v).
End Contracts.

(** weights and history of the penalty *)
Record PenI (d : nat) (st : @PenState ENum) : Prop := {
  pi_w : length (pen_w st) = d /\ Forall nnf (pen_w st);
  pi_hist : Forall nnf (pen_hist st) }.

Lemma pen_start d : PenI d (@cma_init_pen ENum d).
Proof.
  constructor; cbn.
  - split; [apply repeat_length|]. apply Forall_forall. intros x Hx. apply repeat_spec in Hx. subst. cbn. unfold Rlit. cbn. lra.
  - constructor; [cbn; unfold Rlit; cbn; lra|constructor].
Qed.

Lemma clip_val r : @clip1 EArith (Fin r) = Fin (Rmax (-1) (Rmin 1 r)).
Proof.
  unfold clip1, n1, nZ. cbn [nltb nlit EArith er_ltb]. replace (Rlit (-1) 0) with (-1) by (unfold Rlit; cbn; lra).
  replace (Rlit 1 0) with 1 by (unfold Rlit; cbn; lra).
  destruct (Rltb r (-1)) eqn:E1; rb.
  - cbn [er_ltb]. replace (Rltb 1 (-1)) with false by (symmetry; apply Rltb_false; lra). f_equal.
    rewrite Rmin_right by lra. rewrite Rmax_left by lra. reflexivity.
  - cbn [er_ltb]. destruct (Rltb 1 r) eqn:E2; rb; f_equal.
    + rewrite Rmin_left by lra. rewrite Rmax_right by lra. reflexivity.
    + rewrite Rmin_right by lra. rewrite Rmax_right by lra. reflexivity.
Qed.
Lemma clip_inside r : -1 <= r <= 1 -> @clip1 EArith (Fin r) = Fin r.
Proof. intros H. rewrite clip_val, Rmin_right, Rmax_right by lra. reflexivity. Qed.

Lemma mean_posf (l : list er) : l <> [] -> Forall posf l -> posf (@vmean EArith l).
Proof.
  intros Hl HF. destruct (posf_list l HF) as (r & -> & Hr). unfold vmean. rewrite vsum_fin, nN_E. rewrite map_length.
  assert (Hn : r <> []) by (intros ->; apply Hl; reflexivity).
  assert (Hp : 0 < INR (length r)) by (apply lt_0_INR; destruct r; [contradiction|cbn; lia]).
  cbn [ndiv EArith]. rewrite div_fin by lra. cbn. apply Rdiv_lt_0_compat; [|exact Hp].
  destruct r as [|a r]; [contradiction|]. inversion Hr; subst. cbn.
  enough (0 <= rsum r) by lra. clear - H2. induction H2; cbn; lra.
Qed.

(** the scaling of the coordinates is positive *)
Lemma scale_posf (diagC : list er) : Forall posf diagC -> Forall posf (@bnd_scale EArith diagC).
Proof.
  intros HF. destruct (posf_list diagC HF) as (r & -> & Hr). unfold bnd_scale.
  assert (HL : map (@nln EArith) (fin r) = fin (map ln r)).
  { apply map_fin. intros x Hx. cbn. rewrite Forall_forall in Hr. destruct (Rlt_dec 0 x) as [|n]; [reflexivity|]. contradiction n. apply Hr, Hx. }
  rewrite HL. unfold vmean. rewrite vsum_fin, nN_E, map_length, map_length.
  apply Forall_forall. intros y Hy. apply in_map_iff in Hy. destruct Hy as (x & <- & Hx).
  apply in_map_iff in Hx. destruct Hx as (c & <- & Hc). rewrite Forall_forall in Hr. pose proof (Hr c Hc) as Hc0.
  assert (Hp : 0 < INR (length r)) by (apply lt_0_INR; destruct r; [destruct Hc|cbn; lia]).
  cbn [ndiv EArith nln er_ln]. rewrite div_fin by lra. destruct (Rlt_dec 0 c) as [_|n]; [|contradiction].
  cbn. apply exp_pos.
Qed.

(** the penalty of a row is a non-negative number, 0 if clipping does not change the row *)
Lemma penalty_nnf (v x w scale : list er) : fins v -> fins x -> Forall nnf w -> Forall posf scale -> nnf (@penalty EArith v x w scale).
Proof.
  intros Hv Hx Hw Hs. destruct (isfin_fin v Hv) as [vr ->]. destruct (isfin_fin x Hx) as [xr ->].
  destruct (nnf_list w Hw) as (wr & -> & Pw). destruct (posf_list scale Hs) as (sr & -> & Ps).
  unfold penalty. unfold vsub. rewrite (map2_fin _ Rminus) by reflexivity.
  rewrite (map_fin _ (fun x => x * x)) by reflexivity.
  assert (HD : @vdiv EArith (fin wr) (fin sr) = fin (map2 Rdiv wr sr)).
  { clear - Ps. unfold vdiv. revert sr Ps. induction wr as [|a wr IH]; intros [|b sr] Ps; try reflexivity. cbn [map map2].
    inversion Ps; subst. f_equal; [apply div_fin; lra|apply IH; assumption]. }
  rewrite HD, vdot_fin. cbn. apply rdot_pos_nonneg.
  - apply Forall_forall. intros y Hy. apply in_map_iff in Hy. destruct Hy as (z & <- & _). nra.
  - clear - Pw Ps. revert sr Ps. induction Pw as [|a wr Ha Pw IH]; intros [|b sr] Ps; cbn [map2]; constructor.
    + inversion Ps; subst. apply Rmult_le_pos; [exact Ha|]. apply Rlt_le, Rinv_0_lt_compat. assumption.
    + inversion Ps; subst. apply IH. assumption.
Qed.
Lemma penalty_zero (x w scale : list er) : fins x -> fins w -> Forall posf scale -> @penalty EArith x x w scale = Fin 0.
Proof.
  intros Hx Hw Hs. destruct (isfin_fin x Hx) as [xr ->].
  destruct (isfin_fin w Hw) as (wr & ->). destruct (posf_list scale Hs) as (sr & -> & Ps).
  unfold penalty, vsub. rewrite (map2_fin _ Rminus) by reflexivity.
  rewrite (map_fin _ (fun x => x * x)) by reflexivity.
  assert (HD : @vdiv EArith (fin wr) (fin sr) = fin (map2 Rdiv wr sr)).
  { clear - Ps. unfold vdiv. revert sr Ps. induction wr as [|a wr IH]; intros [|b sr] Ps; try reflexivity. cbn [map map2].
    inversion Ps; subst. f_equal; [apply div_fin; lra|apply IH; assumption]. }
  rewrite HD, vdot_fin. f_equal. generalize (map2 Rdiv wr sr). clear. unfold rdot.
  induction xr as [|a xr IH]; intros [|b l]; cbn; try reflexivity. rewrite IH. ring.
Qed.

(** the factor by which a weight grows *)
Lemma grow_factor d m : (1 <= d)%nat -> 0 < m ->
  @npow EArith (@nlit EArith 12 (-1)) (@pymin EArith (@n1 EArith) (@ndiv EArith (@ndiv EArith (Fin m) (@nZ EArith 10)) (@nN EArith d)))
  = Fin (Rpower (6 / 5) (Rmin 1 (m / 10 / INR d))).
Proof.
  intros Hd Hm. rewrite nN_E. unfold pymin, n1, nZ. cbn [ndiv nlit npow nltb EArith].
  replace (Rlit 10 0) with 10 by (unfold Rlit; cbn; lra). replace (Rlit 1 0) with 1 by (unfold Rlit; cbn; lra).
  replace (Rlit 12 (-1)) with (6 / 5) by (unfold Rlit; cbn; lra).
  assert (Hn : 0 < INR d) by (apply lt_0_INR; lia). rewrite !div_fin by lra.
  cbn [er_ltb]. destruct (Rltb _ _) eqn:E1; rb.
  - cbn [er_pow]. destruct (Rlt_dec 0 (6 / 5)) as [_|n]; [|exfalso; apply n; lra]. rewrite Rmin_right by lra. reflexivity.
  - cbn [er_pow]. destruct (Rlt_dec 0 (6 / 5)) as [_|n]; [|exfalso; apply n; lra]. rewrite Rmin_left by lra. reflexivity.
Qed.
Lemma grow_gt1 d m : (1 <= d)%nat -> 0 < m -> 1 < Rpower (6 / 5) (Rmin 1 (m / 10 / INR d)).
Proof.
  intros Hd Hm. assert (Hn : 0 < INR d) by (apply lt_0_INR; lia).
  apply Rle_lt_trans with (Rpower (6 / 5) 0); [right; symmetry; apply Rpower_O; lra|]. apply Rpower_lt; [lra|]. apply Rmin_glb_lt; [lra|].
  apply Rdiv_lt_0_compat; [lra|exact Hn].
Qed.
Lemma grow_nnf d m idx (w : list er) : (1 <= d)%nat -> 0 < m -> Forall nnf w -> Forall nnf (@pen_grow EArith d (Fin m) idx w).
Proof.
  intros Hd Hm Hw. unfold pen_grow. revert idx. induction Hw as [|x w Hx Hw IH]; intros [|[] idx]; cbn [map2]; constructor; try apply IH.
  - rewrite grow_factor by assumption. destruct x as [r| | |]; try contradiction. cbn. apply Rmult_le_pos; [exact Hx|].
    apply Rlt_le. unfold Rpower. apply exp_pos.
  - exact Hx.
Qed.

(** ** One call of Penalize *)
Section Step.
  Context {E : Env ENum} (HPct : PctOK) (HMed : MedOK).
  Variables (Pe : list er -> Prop) (Pc : list (list er) -> @CbState EArith -> Prop).
  Variable V : list er -> er -> Prop.
  Hypothesis HV : forall x y, V x y -> isfin y.

  (** what one call returns: objective values plus penalties *)
  Definition Penalized (valid arx : list (list er)) (fit : list er) : Prop :=
    exists (f : list er) (pen : list R), Forall2 V valid f /\ length pen = length arx /\
      Forall (fun q => 0 <= q) pen /\ fit = map2 (fun y q => er_add y (Fin q)) f pen /\
      forall k, (k < length arx)%nat -> Forall (fun x => exists r, x = Fin r /\ -1 <= r <= 1) (nth k arx []) -> nth k pen 0 = 0.

  Lemma delta_nnf (fit : list er) d diagC sigma : fit <> [] -> fins fit -> (1 <= d)%nat -> diagC <> [] -> Forall posf diagC -> posf sigma ->
    nnf (@ndiv EArith (@ndiv EArith (@ndiv EArith (@nsub EArith (e_percentile fit (@nZ EArith 75)) (e_percentile fit (@nZ EArith 25)))
           (@nN EArith d)) (@vmean EArith diagC)) (@nsq EArith sigma)).
  Proof.
    intros Hf Ff Hd HC FC Hs. destruct (HPct fit 25 75 Hf Ff ltac:(lra) ltac:(lra)) as (a & b & Ea & Eb & Hab).
    unfold nZ. cbn [nlit EArith]. replace (Rlit 75 0) with 75 by (unfold Rlit; cbn; lra). replace (Rlit 25 0) with 25 by (unfold Rlit; cbn; lra).
    rewrite Ea, Eb, nN_E. pose proof (mean_posf diagC HC FC) as Hm. destruct (@vmean EArith diagC) as [q| | |]; try contradiction.
    destruct sigma as [s| | |]; try contradiction. cbn in Hm, Hs. unfold nsq. cbn [nsub nmul ndiv EArith er_sub er_mul].
    assert (Hn : 0 < INR d) by (apply lt_0_INR; lia). assert (0 < s * s) by nra. rewrite !div_fin by lra. cbn.
    apply Rmult_le_pos; [apply Rmult_le_pos; [apply Rmult_le_pos; [lra|]|]|]; apply Rlt_le, Rinv_0_lt_compat; assumption.
  Qed.

  Lemma map3_pen (w scale : list er) : forall (f : list er) (arx : list (list er)), length f = length arx ->
    fins f -> Forall (fun x => fins x) arx -> Forall nnf w -> Forall posf scale ->
    exists pen : list R, length pen = length arx /\ Forall (fun q => 0 <= q) pen /\
      map3 (fun f v x => @nadd EArith f (@penalty EArith v x w scale)) f (map (map (@clip1 EArith)) arx) arx = map2 (fun y q => er_add y (Fin q)) f pen /\
      forall k, (k < length arx)%nat -> Forall (fun x => exists r, x = Fin r /\ -1 <= r <= 1) (nth k arx []) -> nth k pen 0 = 0.
  Proof.
    intros f arx. revert f. induction arx as [|x arx IH]; intros [|y f] Hl Hf Ha Hw Hs; try discriminate.
    - exists []. repeat split; try constructor. intros k Hk. cbn in Hk. lia.
    - inversion Hf; inversion Ha; subst. destruct (IH f) as (pen & L & P & Eq & Z); try assumption; [cbn in Hl; lia|].
      assert (FX : fins (map (@clip1 EArith) x)).
      { apply fins_map; [|assumption]. intros z Hz. destruct z; try contradiction. rewrite clip_val. exact I. }
      pose proof (penalty_nnf (map (@clip1 EArith) x) x w scale FX H5 Hw Hs) as Hp.
      destruct (@penalty EArith (map (@clip1 EArith) x) x w scale) as [q| | |] eqn:Eq1; try contradiction. exists (q :: pen).
      split; [cbn; congruence|]. split; [constructor; assumption|]. split.
      + cbn [map map3 map2]. rewrite Eq1, Eq. reflexivity.
      + intros [|k] Hk Hin; cbn [nth] in *; [|apply Z; [cbn in Hk; lia|exact Hin]].
        assert (Hc : map (@clip1 EArith) x = x).
        { clear - Hin. induction Hin as [|z x (r & -> & Hr) Hin IH]; [reflexivity|]. cbn [map]. rewrite clip_inside by exact Hr. f_equal. exact IH. }
        rewrite Hc, penalty_zero in Eq1; [injection Eq1 as <-; reflexivity|assumption| |assumption].
        eapply Forall_impl; [|exact Hw]. apply nnf_fin.
  Qed.

  Lemma pen_safe p d (arx : list (list er)) xmean xold sigma diagC m it (st : @PenState ENum) fn :
    (1 <= d)%nat -> (1 <= length arx)%nat -> Forall (fun x => fins x) arx -> posf sigma -> diagC <> [] -> Forall posf diagC -> 0 < m -> PenI d st ->
    length xmean = d -> length diagC = d -> length xold = d ->
    safe Pe Pc (fn (map (map (@clip1 EArith)) arx)) (Forall2 V (map (map (@clip1 EArith)) arx)) ->
    safe Pe Pc (penalize p d arx xmean xold sigma diagC (Fin m) it st fn)
      (fun r : evec * @matrix EArith * @PenState ENum => let '(fit, valid, st') := r in
         valid = map (map (@clip1 EArith)) arx /\ PenI d st' /\ Penalized valid arx fit).
  Proof.
    intros Hd Hp Ha Hs HC FC Hm [[Lw Fw] Fh] Lx LC Lo Hfn. unfold penalize. cbv zeta.
    eapply safe_bind; [exact Hfn|]. intros f Hf. cbv beta in Hf.
    assert (Lf : length f = length arx) by (apply Forall2_length in Hf; rewrite map_length in Hf; symmetry; exact Hf).
    assert (Ff : fins f) by (clear - Hf HV; induction Hf; constructor; eauto).
    assert (Nf : f <> []) by (intros ->; cbn in Lf; lia).
    pose proof (delta_nnf f d diagC sigma Nf Ff Hd HC FC Hs) as Hdel.
    change (@num_arith ENum) with EArith in *.
    match goal with |- context [@neqb _ ?x _] => set (delta := x : er) in * end. change (nnf delta) in Hdel. clearbody delta.
    eapply safe_bind with (R := fun r : er * evec * bool => let '(delta, hist, _) := r in nnf delta /\ Forall nnf hist).
    { destruct (@neqb EArith delta _).
      - destruct (filter _ _) as [|q l] eqn:EF; [apply safe_raise|]. apply safe_ret. split; [|exact Fh].
        assert (Hin : forall v, In v (q :: l) -> In v (pen_hist st)) by (intros v Hv; rewrite <- EF in Hv; apply filter_In in Hv; apply Hv).
        rewrite Forall_forall in Fh. apply Fh, Hin, vmin_in. discriminate.
      - destruct (negb _); apply safe_ret; (split; [exact Hdel|]); [constructor|exact Fh]. }
    clear Hdel. intros [[delta' hist] valid] [Hdel Hh].
    match goal with |- context [mkPen _ ?h _ _] => set (hist' := h) end.
    assert (Hh' : Forall nnf hist' /\ hist' <> []).
    { unfold hist'. match goal with |- context [if ?b then _ else _] => destruct b end; (split; [apply Forall_app; split; [|constructor; [exact Hdel|constructor]]|]).
      - exact Hh.
      - intros H. apply app_eq_nil in H. destruct H; discriminate.
      - destruct Hh; [constructor|assumption].
      - intros H. apply app_eq_nil in H. destruct H; discriminate. }
    destruct Hh' as [Hh' Nh']. clearbody hist'.
    match goal with |- safe _ _ (match ?x with pair _ _ => _ end) _ => destruct x as [w0 ini] eqn:EW end.
    assert (HW0 : Forall nnf w0 /\ length w0 = d).
    { match type of EW with (if ?b then _ else _) = _ => destruct b end; injection EW as <- _; [|split; assumption].
      split; [|apply repeat_length]. apply Forall_forall. intros x Hx. apply repeat_spec in Hx. subst x.
      pose proof (HMed hist' Nh' Hh') as HM. destruct (@e_median ENum E hist') as [q| | |]; try contradiction. cbn in HM |- *.
      apply Rmult_le_pos; [unfold Rlit; cbn; lra|exact HM]. }
    destruct HW0 as [HW0 LW0]. clear EW.
    match goal with |- context [mkPen ?w _ _ _] => set (w1 := w : list er) end.
    assert (HW1 : Forall nnf w1 /\ length w1 = d).
    { unfold w1. match goal with |- context [if ?b then _ else _] => destruct b end; [|split; assumption].
      split; [apply grow_nnf; assumption|]. unfold pen_grow. apply map2_len; [|exact LW0].
      unfold pen_idx. rewrite map3_length, combine_length, combine_length. unfold pen_ti, pen_tx. rewrite !map_length.
      change (@num_arith ENum) with EArith in *. elia. }
    clearbody w1. destruct HW1 as [HW1 LW1]. apply safe_ret. split; [reflexivity|]. split.
    - constructor; cbn [pen_w pen_hist]; [split; assumption|assumption].
    - destruct (map3_pen w1 (@bnd_scale EArith diagC) f arx Lf Ff Ha HW1 (scale_posf diagC FC)) as (pen & L & P & Eq & Z).
      exists f, pen. split; [exact Hf|]. split; [exact L|]. split; [exact P|]. split; [exact Eq|exact Z].
  Qed.
End Step.

(** ** The boundary weights *)
Definition grows (d : nat) (m s : R) (c x xo : R) : Prop :=
  1 < x /\ 3 * Rmax 1 (sqrt (INR d / m)) * s * sqrt c < x - 1 /\ xo < x.

Lemma sign_pos r : 0 < r -> @nsign EArith (Fin r) = Fin 1.
Proof.
  intros H. unfold nsign, n0, n1, nZ. cbn. replace (Rltb r 0) with false by (symmetry; apply Rltb_false; lra).
  replace (Rltb 0 r) with true by (symmetry; apply Rltb_true; lra). reflexivity.
Qed.
Lemma sign_neg r : r < 0 -> @nsign EArith (Fin r) = Fin (-1).
Proof. intros H. unfold nsign, n0, n1, nZ. cbn. replace (Rltb r 0) with true by (symmetry; apply Rltb_true; lra). reflexivity. Qed.
Lemma sign_zero : @nsign EArith (Fin 0) = Fin 0.
Proof.
  unfold nsign, n0, n1, nZ. cbn. replace (Rltb 0 0) with false by (symmetry; apply Rltb_false; lra).
  replace (Reqb 0 0) with true by (symmetry; apply Reqb_true; reflexivity). reflexivity.
Qed.

Lemma idx_val d m s c x xo : (1 <= d)%nat -> 0 < m -> 0 < s -> 0 < c ->
  (let tx := @nsub EArith (Fin x) (if @nltb EArith (@n1 EArith) (Fin x) then @n1 EArith else Fin x) in
   ((@nltb EArith (Fin x) (@nZ EArith (-1)) || @nltb EArith (@n1 EArith) (Fin x))
    && @nltb EArith (@nmul EArith (@nmul EArith (@nmul EArith (@nZ EArith 3) (@pymax EArith (@n1 EArith) (@nsqrt EArith (@ndiv EArith (@nN EArith d) (Fin m))))) (Fin s)) (@nsqrt EArith (Fin c))) (@nabs EArith tx)
    && @neqb EArith (@nsign EArith tx) (@nsign EArith (@nsub EArith (Fin x) (Fin xo))))%bool) = true <-> grows d m s c x xo.
Proof.
  intros Hd Hm Hs Hc. assert (Hn : 0 < INR d) by (apply lt_0_INR; lia).
  assert (Hq : 0 <= INR d / m) by (apply Rlt_le, Rdiv_lt_0_compat; lra).
  rewrite nN_E. unfold n1, nZ. cbn [nlit EArith]. replace (Rlit 1 0) with 1 by (unfold Rlit; cbn; lra).
  replace (Rlit (-1) 0) with (-1) by (unfold Rlit; cbn; lra). replace (Rlit 3 0) with 3 by (unfold Rlit; cbn; lra).
  cbn [ndiv nsqrt EArith]. rewrite div_fin by lra. rewrite !sqrt_fin by lra.
  assert (Hmax : @pymax EArith (Fin 1) (Fin (sqrt (INR d / m))) = Fin (Rmax 1 (sqrt (INR d / m)))).
  { unfold pymax. cbn [nltb EArith er_ltb]. destruct (Rltb 1 (sqrt (INR d / m))) eqn:E1; rb; [rewrite Rmax_right by lra|rewrite Rmax_left by lra]; reflexivity. }
  rewrite Hmax. assert (HM : 1 <= Rmax 1 (sqrt (INR d / m))) by apply Rmax_l.
  set (M := Rmax 1 (sqrt (INR d / m))) in *. assert (Hsc : 0 < sqrt c) by (apply sqrt_lt_R0, Hc).
  assert (HB : 0 < 3 * M * s * sqrt c) by (repeat apply Rmult_lt_0_compat; lra).
  cbn [nltb nsub nmul nabs EArith er_ltb er_mul]. unfold grows. fold M.
  destruct (Rltb 1 x) eqn:E1; rb.
  - rewrite orb_true_r. cbn [andb er_sub er_abs er_ltb]. rewrite (Rabs_pos_eq (x - 1)) by lra.
    destruct (Rltb (3 * M * s * sqrt c) (x - 1)) eqn:E2; rb; [|split; [discriminate|lra]].
    cbn [andb]. cbn [er_sub]. rewrite (sign_pos (x - 1)) by lra.
    destruct (Rlt_dec xo x) as [Hlt|Hge].
    + rewrite sign_pos by lra. split; [lra|]. intros _. cbn. apply Reqb_true. reflexivity.
    + split; [|lra]. intros H. exfalso. destruct (Req_EM_T xo x) as [->|Hne].
      * replace (x - x) with 0 in H by ring. rewrite sign_zero in H. cbn in H. apply Reqb_true in H. lra.
      * rewrite sign_neg in H by lra. cbn in H. apply Reqb_true in H. lra.
  - cbn [er_sub er_abs er_ltb]. replace (x - x) with 0 by ring. rewrite Rabs_R0.
    replace (Rltb (3 * M * s * sqrt c) 0) with false by (symmetry; apply Rltb_false; lra).
    rewrite andb_false_r. cbn. split; [discriminate|lra].
Qed.

Lemma idx_nth d m s (C xm xo : list R) i : (1 <= d)%nat -> 0 < m -> 0 < s -> Forall (fun c => 0 < c) C ->
  length C = d -> length xm = d -> length xo = d -> (i < d)%nat ->
  nth i (@pen_idx EArith d (Fin m) (Fin s) (fin C) (fin xm) (fin xo)) false = true <-> grows d m s (nth i C 0) (nth i xm 0) (nth i xo 0).
Proof.
  intros Hd Hm Hs HC LC Lm Lo Hi. rewrite Forall_forall in HC. rewrite <- idx_val; [|exact Hd|exact Hm|exact Hs|apply HC, nth_In; lia].
  unfold pen_idx, pen_ti, pen_tx. clear HC Hm Hs.
  assert (H : forall (C xm xo : list R) i, length C = length xm -> length xo = length xm -> (i < length xm)%nat ->
    forall (f : bool * (er * er) -> er -> er -> bool),
    nth i (map3 f (combine (map (fun x : er => @nltb EArith x (@nZ EArith (-1)) || @nltb EArith (@n1 EArith) x) (fin xm))
             (combine (fin xm) (map (fun x : er => if @nltb EArith (@n1 EArith) x then @n1 EArith else x) (fin xm)))) (fin C) (fin xo)) false
    = f ((@nltb EArith (Fin (nth i xm 0)) (@nZ EArith (-1)) || @nltb EArith (@n1 EArith) (Fin (nth i xm 0))),
         (Fin (nth i xm 0), (if @nltb EArith (@n1 EArith) (Fin (nth i xm 0)) then @n1 EArith else Fin (nth i xm 0))))
        (Fin (nth i C 0)) (Fin (nth i xo 0))).
  { clear. intros C xm. revert C. induction xm as [|x xm IH]; intros [|c C] [|o xo] i H1 H2 Hi f; cbn [length] in *; try lia.
    destruct i as [|i]; [reflexivity|]. cbn [map combine map3 nth]. apply IH; lia. }
  rewrite H by lia. cbn [fst snd]. reflexivity.
Qed.

(** C30.  After the initial phase the weight of a coordinate changes only if its mean lies above the
    upper bound by more than the stated distance and moves away from the box; it is then multiplied by
    a number above 1.  A mean below the lower bound never changes a weight. *)
Section Weight.
  Context {E : Env ENum}.
  Theorem C30_weights p d (arx : list (list er)) (xm xo C : list R) s m it (st : @PenState ENum) fn w fit valid st' w' :
    (1 <= d)%nat -> 0 < m -> 0 < s -> Forall (fun c => 0 < c) C -> length C = d -> length xm = d -> length xo = d ->
    length (pen_w st) = d -> pen_ini st = false ->
    penalize p d arx (map Fin xm) (map Fin xo) (Fin s) (map Fin C) (Fin m) it st fn w = (inl (fit, valid, st'), w') ->
    length (pen_w st') = d /\ pen_ini st' = false /\
    forall i, (i < d)%nat ->
      (grows d m s (nth i C 0) (nth i xm 0) (nth i xo 0) ->
         exists k, 1 < k /\ nth i (pen_w st') (Fin 0) = er_mul (nth i (pen_w st) (Fin 0)) (Fin k)) /\
      (~ grows d m s (nth i C 0) (nth i xm 0) (nth i xo 0) -> nth i (pen_w st') (Fin 0) = nth i (pen_w st) (Fin 0)).
  Proof.
    intros Hd Hm Hs HC LC Lm Lo Lw Hini HP.
    assert (HG : gives (penalize p d arx (map Fin xm) (map Fin xo) (Fin s) (map Fin C) (Fin m) it st fn)
      (fun r : evec * @matrix EArith * @PenState ENum => pen_ini (snd r) = false /\
         pen_w (snd r) = if existsb (fun b : bool => b) (@pen_ti EArith (fin xm))
                         then @pen_grow EArith d (Fin m) (@pen_idx EArith d (Fin m) (Fin s) (fin C) (fin xm) (fin xo)) (pen_w st) else pen_w st)).
    { unfold penalize. cbv zeta. eapply gives_bind; [apply gives_any|]. intros f _. eapply gives_bind; [apply gives_any|].
      intros [[delta hist] vd] _. rewrite Hini. cbn [andb]. apply gives_ret. cbn [snd pen_ini pen_w]. split; [reflexivity|reflexivity]. }
    destruct (HG _ _ _ HP) as [H1 H2]. cbn [snd] in H1, H2. clear HG HP.
    assert (Hidx : forall i, (i < d)%nat -> nth i (@pen_idx EArith d (Fin m) (Fin s) (fin C) (fin xm) (fin xo)) false = true <->
      grows d m s (nth i C 0) (nth i xm 0) (nth i xo 0)) by (intros i Hi; apply idx_nth; assumption).
    assert (Lidx : length (@pen_idx EArith d (Fin m) (Fin s) (fin C) (fin xm) (fin xo)) = d).
    { unfold pen_idx. rewrite map3_length, combine_length, combine_length. unfold pen_ti, pen_tx. rewrite !map_length. lia. }
    assert (Hany : existsb (fun b : bool => b) (@pen_ti EArith (fin xm)) = false -> forall i, ~ grows d m s (nth i C 0) (nth i xm 0) (nth i xo 0)).
    { intros HF i (Hx & _ & _). assert (Hi : (i < length xm)%nat) by (destruct (Nat.lt_ge_cases i (length xm)); [assumption|rewrite nth_overflow in Hx by assumption; lra]).
      assert (HT : existsb (fun b : bool => b) (@pen_ti EArith (fin xm)) = true); [|congruence].
      apply existsb_exists. exists true. split; [|reflexivity]. unfold pen_ti. apply in_map_iff. exists (Fin (nth i xm 0)).
      split; [|apply in_map, nth_In, Hi]. cbn. replace (Rltb 1 (nth i xm 0)) with true by (symmetry; apply Rltb_true; exact Hx). apply orb_true_r. }
    assert (HL : length (pen_w st') = d).
    { rewrite H2. destruct (existsb _ _); [|exact Lw]. unfold pen_grow. apply map2_len; [exact Lidx|exact Lw]. }
    split; [exact HL|]. split; [exact H1|]. intros i Hi. destruct (existsb _ _) eqn:EX.
    - assert (Hn : nth i (pen_w st') (Fin 0) = if nth i (@pen_idx EArith d (Fin m) (Fin s) (fin C) (fin xm) (fin xo)) false
        then er_mul (nth i (pen_w st) (Fin 0)) (Fin (Rpower (6 / 5) (Rmin 1 (m / 10 / INR d)))) else nth i (pen_w st) (Fin 0)).
      { rewrite H2. unfold pen_grow. rewrite grow_factor by assumption. pose proof (eq_trans Lidx (eq_sym Lw)) as Ll. rewrite <- Lw in Hi. clear - Hi Ll. revert Hi Ll.
        generalize (@pen_idx EArith d (Fin m) (Fin s) (fin C) (fin xm) (fin xo)) (pen_w st). clear.
        intros l w. revert l i. induction w as [|a w IH]; intros [|b l] i Hi Hl; cbn [length] in *; try lia. destruct i as [|i]; [reflexivity|].
        cbn [map2 nth]. apply IH; lia. }
      rewrite Hn. split.
      + intros HGr. apply Hidx in HGr; [|exact Hi]. rewrite HGr. exists (Rpower (6 / 5) (Rmin 1 (m / 10 / INR d))). split; [apply grow_gt1; assumption|reflexivity].
      + intros HGr. destruct (nth i (@pen_idx EArith d (Fin m) (Fin s) (fin C) (fin xm) (fin xo)) false) eqn:EI; [|reflexivity].
        contradiction HGr. apply Hidx; assumption.
    - split; [intros HGr; contradiction (Hany eq_refl i)|]. intros _. rewrite H2. reflexivity.
  Qed.
End Weight.

Lemma below_no_growth d m s c x xo : x < -1 -> ~ grows d m s c x xo.
Proof. unfold grows. lra. Qed.
