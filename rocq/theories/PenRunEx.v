(** C30: a call of cmaes that meets the hypotheses of the theorems of PenRun.v (exact arithmetic): the
    mean starts below the lower bound and the normal numbers drawn are all zero, so that it stays there. *)
From Coq Require Import Reals Lra Psatz Permutation.
From Verif Require Import Base Num NumR NumE Env Common DE Mat CMAES VDCMA Weights EvalVal Inst PlainEnv FeasPso FeasEx VdReal Visit VdRun VdRunEx Cov CmReal CmRun CmRunEx Pen PenRun.
Open Scope R_scope.

Definition EP0 : Env ENum := PlainEnv (N := ENum) (fun _ => Fin 0) (fun _ => Fin 1).
Definition EP : Env ENum := Eval cbv delta [EP0 PlainEnv] in
  @mkEnv ENum nat unit
       (fun _ => 0%nat)
       (fun k => (Fin 0, S k)) (fun k => (Fin 0, S k)) (fun n k => (seq 0 n, S k)) (fun n k => (0%nat, S k))
       (fun x w => (inl (Fin 1), w))
       (fun _ _ w => (None, w)) (fun _ _ w => (None, w))
       (fun n _ => rev (seq 0 n))
       0%nat 1%nat (fun _ X => X) (fun _ _ f => f)
       (fun v => p_isort (N := ENum) v (seq 0 (length v)))
       (fun v q => @nadd EArith (nth 0 v (Fin 0)) q) (fun v => nth 0 v (Fin 0))
       (fun C => Some (map (fun _ => Fin 1) C, C)) (fun n => repeat (Fin 0) n).
#[local] Existing Instance EP.

Lemma ep_ok : EnvOK.
Proof.
  assert (H : @EnvOK ENum EP0) by (apply PlainEnv_OK; intros k; cbn; unfold Rlit; cbn; split; rb; lra).
  destruct H. constructor; assumption.
Qed.
Lemma ep_pct : PctOK.
Proof.
  intros v q1 q2 Hv Fv H1 H2. destruct v as [|x v]; [congruence|]. inversion Fv as [|? ? Hx _]; subst. destruct x as [r| | |]; try contradiction.
  exists (r + q1), (r + q2). split; [reflexivity|]. split; [reflexivity|lra].
Qed.
Lemma ep_med : MedOK.
Proof. intros v Hv Fv. destruct v as [|x v]; [congruence|]. inversion Fv; subst. assumption. Qed.
Lemma ep_empty : EmptyLen.
Proof. intros n. apply repeat_length. Qed.
Lemma ep_randn g : isfin (fst (@e_randn ENum EP g)).
Proof. exact I. Qed.
Lemma ep_eigh : EighPD.
Proof.
  intros d C D B [LC FC] _ _ H. cbn in H. injection H as <- <-. rewrite !map_length.
  split; [exact LC|]. split; [|split; [exact LC|apply mfin_fins]].
  apply Forall_forall. intros x Hx. apply in_map_iff in Hx. destruct Hx as (r & <- & _). cbn. lra.
Qed.
Lemma ep_val (x : list er) (y : er) : Val x y -> y = Fin 1.
Proof. intros (w & H). cbn in H. congruence. Qed.
Lemma ep_fin (x : list er) (y : er) : Val x y -> isfin y.
Proof. intros H. rewrite (ep_val _ _ H). exact I. Qed.

Definition prows : list (list er) := [[Fin (-1); Fin 1]].
Definition pargs : @CMAArgs ENum :=
  @mkCMAArgs ENum (@mkArgs ENum true (@D2 EArith 2 prows) (Some (@D1 EArith [Fin (-2)])) true 9 2 (Some 0%Z) (Fin 0) (Fin 0) (Some "Penalize"%string) 1 None false (Fin 1) CbNone)
    (Fin 1) (Fin (1 / 2)).
Lemma pargs_ok : FiniteArgs pargs prows 1 (1 / 2).
Proof.
  constructor; try reflexivity.
  - repeat constructor. exists (-1), 1. split; [reflexivity|lra].
  - cbn. intros x Hx. injection Hx as <-. exists [-2]. split; reflexivity.
  - cbn. lra.
Qed.

Record ZP (P : @CMAParams ENum) : Prop := {
  z_d : cm_d P = 1%nat; z_p : cm_p P = 2%nat; z_mu : cm_mu P = 1%nat; z_pen : cm_pen P = true; z_mode : cm_mode P = Serial;
  z_nout : cm_nout P = None; z_max : cm_maxiter P = 9%Z; z_ftol : cm_ftol P = Fin 0; z_xtol : cm_xtol P = Fin 0;
  z_sg : cm_insigma P = Fin 1; z_lim : (3 <= cm_ilim P)%Z }.

Record Z1 (q0 c0 : R) (s : @CMAS ENum) : Prop := {
  z_x : cs_xmean s = [Fin (-2)]; z_old : exists xo, cs_xold s = [Fin xo]; z_pc : cs_pc s = [Fin 0]; z_ps : cs_ps s = [Fin 0];
  z_q : exists q, cs_sigma s = Fin q /\ q0 <= q <= 1; z_C : exists c, cs_C s = [[Fin c]] /\ c0 <= c <= 1;
  z_B : exists b, cs_B s = [[Fin b]] /\ c0 <= b <= 1; z_D : cs_D s = [Fin 1]; z_inv : exists v, cs_inv s = [[Fin v]] }.

Ltac rl := unfold nZ, n0, n1, nsq; cbn [nlit nadd nsub nmul EArith num_arith ENum er_add er_sub er_mul]; unfold Rlit; cbn -[Rpower powerRZ]; try lra.

(** the computation succeeds, and its value has the property *)
Definition yields {A} (m : M A) (Q : A -> Prop) : Prop := forall w, exists a w', m w = (inl a, w') /\ Q a.
Lemma yields_ret {A} (a : A) (Q : A -> Prop) : Q a -> yields (ret a) Q.
Proof. intros H w. exists a, w. split; [reflexivity|exact H]. Qed.
Lemma yields_bind {A B} (m : M A) (f : A -> M B) R Q : yields m R -> (forall a, R a -> yields (f a) Q) -> yields (bind m f) Q.
Proof. intros H1 H2 w. destruct (H1 w) as (a & w1 & Ea & Ha). destruct (H2 a Ha w1) as (b & w2 & Eb & Hb). exists b, w2. unfold bind. rewrite Ea. auto. Qed.
Lemma yields_and {A} (m : M A) R Q : yields m R -> gives m Q -> yields m (fun a => R a /\ Q a).
Proof. intros H1 H2 w. destruct (H1 w) as (a & w1 & Ea & Ha). exists a, w1. split; [exact Ea|]. split; [exact Ha|exact (H2 _ _ _ Ea)]. Qed.

Lemma z_sample P s q0 c0 : ZP P -> Z1 q0 c0 s -> yields (cma_sample P s) (fun arx => arx = [[Fin (-2)]; [Fin (-2)]]).
Proof.
  intros HP HZ. unfold cma_sample. rewrite (z_p _ HP), (z_d _ HP), (z_x _ _ _ HZ), (z_D _ _ _ HZ).
  destruct (z_q _ _ _ HZ) as (q & -> & _). destruct (z_B _ _ _ HZ) as (b & -> & _).
  intros w. eexists. eexists. split; [reflexivity|]. cbn. repeat f_equal; lra.
Qed.

Lemma z_eval P a1 a2 : ZP P -> yields (cma_eval P [a1; a2]) (fun f => f = [Fin 1; Fin 1]).
Proof. intros HP. unfold cma_eval. rewrite (z_mode _ HP). intros w. eexists. eexists. split; reflexivity. Qed.

Lemma z_pen_ini P s q0 c0 it (arx : list (list er)) : ZP P -> Z1 q0 c0 s -> 0 < q0 -> 0 < c0 -> length arx = 2%nat ->
  yields (cma_fitness P arx (cs_xmean s) (cs_xold s) (cs_sigma s) (@mdiag EArith (cs_C s)) it (cs_pen s))
    (fun r : evec * @matrix EArith * @PenState ENum => length (fst (fst r)) = 2%nat /\
       pen_ini (snd r) = pen_ini (cs_pen s) && negb (pen_valid (snd r) && (2 <? it)%Z) /\ pen_valid (snd r) = true).
Proof.
  intros HP HZ Hq Hc La. destruct arx as [|a1 [|a2 [|]]]; try discriminate.
  unfold cma_fitness. rewrite (z_pen _ HP), (z_d _ HP), (z_x _ _ _ HZ).
  destruct (z_q _ _ _ HZ) as (q & -> & Hq1). destruct (z_C _ _ _ HZ) as (c & -> & Hc1). destruct (z_old _ _ _ HZ) as (xo & ->).
  unfold penalize. change (@num_arith ENum) with EArith.
  assert (Hany : existsb (fun b => b) (@pen_ti EArith [Fin (-2)]) = true).
  { unfold pen_ti. cbn. unfold Rlit; cbn. replace (Rltb (-2) (-1)) with true by (symmetry; apply Rltb_true; lra). reflexivity. }
  rewrite Hany.
  assert (HD : forall f : list er, f = [Fin 1; Fin 1] ->
    @neqb EArith (@ndiv EArith (@ndiv EArith (@ndiv EArith (@nsub EArith (e_percentile f (@nZ EArith 75)) (e_percentile f (@nZ EArith 25))) (@nN EArith 1)) (@vmean EArith (@mdiag EArith [[Fin c]]))) (@nsq EArith (Fin q))) (@n0 EArith) = false).
  { intros f ->. unfold nsq, vmean, mdiag, mget, nN, nZ, n0. cbn. rewrite ?Rlit_0. destruct (Req_EM_T 1 0); [lra|]. rewrite !div_fin by nra. cbn. unfold Reqb. match goal with |- (if ?t then _ else _) = _ => destruct t as [H|H] end; [exfalso|reflexivity].
    revert H. apply Rgt_not_eq. unfold Rdiv. rewrite Rinv_1. assert (Hq2 : 0 < q * q) by nra.
    repeat apply Rmult_lt_0_compat; try (apply Rinv_0_lt_compat); nra. }
  cbn [map]. eapply yields_bind; [apply z_eval, HP|]. intros f Hf. cbv beta in Hf. rewrite (HD f Hf). rewrite Hf. clear f Hf.
  destruct (pen_valid (cs_pen s)); cbn [negb].
  all: eapply yields_bind; [apply (yields_ret _ (fun x => snd x = true)); reflexivity|]; intros [[delta hist] valid] Hv; cbn [snd] in Hv; subst valid; cbv zeta.
  all: destruct (pen_ini (cs_pen s)); cbn [andb]; apply yields_ret; cbn [fst snd map3 length pen_ini pen_valid andb]; auto.
Qed.

Lemma z_conv it ilim (hist fit : list er) v q c b : (1 <= it <= 2)%Z -> (3 <= ilim)%Z -> 1 <= v -> / 100 <= q <= 1 -> / 100 <= c <= 1 -> / 100 <= b <= 1 ->
  @converge ENum it 1 9 [Fin (-2)] [Fin (-2)] hist fit (Fin v) (Fin q) (Fin 1) ilim [Fin 0] (Fin 0) (Fin 0) [Fin c] (Some ([[Fin b]], [Fin 1])) = None.
Proof.
  intros Hit Hl Hv Hq Hc Hb. unfold converge. change (@num_arith ENum) with EArith. change (Z.of_nat 1) with 1%Z. rewrite Z.mod_1_r. cbn [Z.to_nat].
  replace (9 <=? it)%Z with false by (symmetry; apply Z.leb_gt; lia).
  replace (ilim <=? it)%Z with false by (symmetry; apply Z.leb_gt; lia).
  replace (2 <? it)%Z with false by (symmetry; apply Z.ltb_ge; lia).
  assert (Hs : / 100 <= sqrt c <= 1).
  { split; [|rewrite <- sqrt_1; apply sqrt_le_1_alt; lra]. apply Rle_trans with c; [lra|]. 
    assert (0 <= sqrt c <= 1) by (split; [apply sqrt_pos|rewrite <- sqrt_1; apply sqrt_le_1_alt; lra]).
    rewrite <- (sqrt_sqrt c) at 1 by lra. nra. }
  assert (H1 : / 10000 <= q * b) by nra. assert (H2 : / 10000 <= q * sqrt c <= 1) by nra.
  assert (Esq : @nsqrt EArith (Fin c) = Fin (sqrt c)) by (apply sqrt_fin; lra).
  cbn [map nth app col forallb existsb andb]. rewrite Esq.
  set (sq := sqrt c) in *. clearbody sq.
  assert (N1 : @nltb EArith (Fin v) (Fin 0) = false) by (cbn; rb; lra).
  assert (N2 : @nleb EArith (Fin v) (Fin 0) = false) by (cbn; rb; lra).
  rewrite N1, N2, Bool.andb_false_r.
  assert (N3 : @nltb EArith (@nabs EArith (@nmul EArith (@nmul EArith (@nmul EArith (@nlit EArith 1 (-1)) (Fin q)) (Fin b)) (Fin 1))) (@nlit EArith 1 (-10)) = false).
  { cbn. rb. rewrite Rabs_pos_eq; lra. }
  rewrite N3. cbn [andb].
  assert (N4 : @nltb EArith (@nmul EArith (@nmul EArith (@nlit EArith 2 (-1)) (Fin q)) (Fin sq)) (@nlit EArith 1 (-10)) = false) by (cbn; rb; lra).
  rewrite N4. cbn [orb].
  assert (N5 : @nltb EArith (@nmul EArith (@nlit EArith 1 7) (@vmin ENum [Fin 1])) (@vmax ENum [Fin 1]) = false) by (cbn; rb; lra).
  rewrite N5.
  assert (N6 : @nltb EArith (@nmul EArith (@nlit EArith 1 3) (Fin 1)) (@nmul EArith (Fin q) (Fin sq)) = false) by (cbn; rb; lra).
  rewrite N6. cbn [orb].
  assert (N7 : @nltb EArith (@nmul EArith (Fin q) (@vmax ENum [Fin sq])) (@nmul EArith (@nlit EArith 1 (-11)) (Fin 1)) = false) by (cbn; rb; lra).
  match goal with |- context [_ && (?b && true)] => replace b with false by (symmetry; exact N7) end. cbn [andb]. rewrite Bool.andb_false_r. reflexivity.
Qed.

Lemma w1 : @cma_weights RArith 1 = [1].
Proof.
  destruct (C27_weights 1 ltac:(lia)) as (L & _ & _ & S). cbv zeta in *. set (w := @cma_weights RArith 1 : list R) in *. clearbody w.
  destruct w as [|x [|]]; try discriminate. cbn in S. f_equal. lra.
Qed.
Lemma m1 : @cma_mueff RArith (@cma_weights RArith 1) = 1.
Proof. rewrite w1. unfold cma_mueff. rewrite !vsum_rsum. cbn. field. Qed.
Lemma c1_val : @cma_c1 RArith 1 1 = 200 / 629.
Proof. unfold cma_c1. rnum. cbn. field. Qed.
Lemma cmu_val : @cma_cmu RArith 1 1 = 0.
Proof.
  unfold cma_cmu, pymin. rewrite c1_val. rnum. cbn. rewrite ?Rlit_0. match goal with |- (if ?b then _ else _) = _ => destruct b eqn:E end; rb; [lra|]. revert E. 
  replace (2 * (1 - 2 + 1 / 1) / ((1 + 2) * (1 + 2) + 1)) with 0 by field. lra.
Qed.

Lemma z_step P it s q0 c0 : ZP P -> CRun 1 P -> Z1 q0 c0 s -> 0 < q0 -> 0 < c0 -> CmI 1 s -> PenI 1 (cs_pen s) -> (1 <= it <= 8)%Z ->
  yields (cma_step P it s) (fun r : @CMAS ENum * option Z => Z1 (q0 / 3) (c0 / 2) (fst r) /\
     pen_ini (cs_pen (fst r)) = pen_ini (cs_pen s) && negb (2 <? it)%Z /\
     ((it <= 2)%Z -> / 100 <= q0 / 3 -> / 100 <= c0 / 2 -> snd r = None)).
Proof.
  intros HP HR HZ Hq Hc HI Hpen Hit. 
  assert (Lo : length (cs_xold s) = 1%nat) by (destruct (z_old _ _ _ HZ) as (xo & ->); reflexivity).
  unfold cma_step. cbv zeta. eapply yields_bind; [apply (z_sample P s q0 c0 HP HZ)|]. intros arx ->.
  eapply yields_bind.
  { eapply yields_and; [apply (z_pen_ini P s q0 c0 it _ HP HZ Hq Hc); reflexivity|].
    apply (fitness_pen ep_pct ep_med ep_fin 1 P it s _ HR HI Hpen Lo); [rewrite (z_mode _ HP); discriminate|exact (z_pen _ HP)|rewrite (z_p _ HP); reflexivity|repeat constructor]. }
  intros [[fit valid] pen] ((Lf & Hini & Hval) & _ & HPP). cbn [fst snd] in *. rewrite Hval in Hini. cbn [andb] in Hini.
  eapply yields_bind; [unfold cma_record, rec_write; rewrite (z_nout _ HP); apply (yields_ret _ (fun _ => True)); exact I|]. intros rc _.
  eapply yields_bind; [unfold hist_set; rewrite (z_max _ HP); replace (9 <? it)%Z with false by (symmetry; apply Z.ltb_ge; lia); apply (yields_ret _ (fun _ => True)); exact I|].
  intros hist _.
  assert (Hfit : exists u1 u2, fit = [Fin u1; Fin u2] /\ 1 <= u1 /\ 1 <= u2).
  { clear - Lf HPP. destruct fit as [|f1 [|f2 [|]]]; try discriminate. inversion HPP as [|? ? ? ? (v1 & q1 & V1 & Q1 & ->) HPP2]; subst.
    inversion HPP2 as [|? ? ? ? (v2 & q2 & V2 & Q2 & ->) _]; subst. apply ep_val in V1, V2. injection V1 as ->. injection V2 as ->.
    exists (1 + q1), (1 + q2). split; [reflexivity|lra]. }
  destruct Hfit as (u1 & u2 & -> & Hu1 & Hu2).
  pose proof (proj1 (eo_argsort ep_ok) [Fin u1; Fin u2]) as Hperm. match type of Hperm with Permutation ?x _ => set (index := x) in *; clearbody index end.
  assert (Hix : exists k l, index = k :: l /\ (k < 2)%nat).
  { destruct index as [|k l]; [apply Permutation_length in Hperm; discriminate|]. exists k, l. split; [reflexivity|].
    assert (Hk : In k (seq 0 2)) by (apply (Permutation_in _ Hperm); left; reflexivity). apply in_seq in Hk. lia. }
  destruct Hix as (k & l & -> & Hk).
  assert (Hb : exists v, nth k [Fin u1; Fin u2] (@n0 EArith) = Fin v /\ 1 <= v) by (destruct k as [|[|k]]; [eexists; split; [reflexivity|lra]..|lia]).
  assert (Hsel : nth k [[Fin (-2)]; [Fin (-2)]] [] = [Fin (-2)]) by (destruct k as [|[|k]]; [reflexivity..|lia]).
  rewrite (z_mu _ HP), (z_d _ HP), (z_x _ _ _ HZ). cbn [firstn]. change (nth 0 (k :: l) 0%nat) with k. cbn [map]. change (@num_arith ENum) with EArith. match goal with |- context [@nth ?A k [?x; ?y] []] => change (@nth A k [x; y] []) with (@nth (list er) k [[Fin (-2)]; [Fin (-2)]] []) end. rewrite Hsel. clear Hsel.
  change (@num_arith ENum) with EArith. destruct Hb as (v & Ev & Hv). match goal with |- context [@nth ?A k [?x; ?y] ?z] => change (@nth A k [x; y] z) with (nth k [Fin u1; Fin u2] (@n0 EArith)) end. rewrite Ev.
  assert (Ew : cm_w P = fin [1]) by (rewrite (cr_w _ _ HR), (z_mu _ HP), <- w1; apply cma_weights_E; lia).
  assert (Em : cm_mueff P = Fin 1) by (rewrite (cr_m _ _ HR), (cr_w _ _ HR), (z_mu _ HP), <- m1; apply cma_mueff_E; lia).
  rewrite Ew, Em.
  match goal with |- context [@vmat EArith 1 (fin [1]) ?x] => assert (Hx : @vmat EArith 1 (fin [1]) x = [Fin (-2)]) by (cbn; repeat f_equal; lra); rewrite !Hx end.
  assert (Hdx : @vsub EArith [Fin (-2)] [Fin (-2)] = [Fin 0]) by (cbn; repeat f_equal; lra). rewrite !Hdx.
  destruct (z_q _ _ _ HZ) as (q & Eq & Hq1). destruct (z_C _ _ _ HZ) as (c & EC & Hc1). destruct (z_B _ _ _ HZ) as (b & EB & Hb1). destruct (z_inv _ _ _ HZ) as (iv & Ei).
  pose proof (C27_rates 1 1 ltac:(lra) ltac:(lra)) as (Rcc & Rcs & Rc1 & Rcmu & Rsum & Rdm).
  rewrite (nN_E 1). change (INR 1) with 1. rewrite c1_E, cmu_C, cc_C, csig_C, damps_C by lra.
  assert (Hps : cma_ps P s [Fin 0] = [Fin 0]).
  { unfold cma_ps. change (@num_arith ENum) with EArith. rewrite (z_d _ HP), Em, (nN_E 1). change (INR 1) with 1. rewrite csig_C by lra.
    rewrite (z_ps _ _ _ HZ), Ei, Eq. set (cs := @cma_cs RArith 1 1) in *. 
    assert (Es : exists r, @nsqrt EArith (@nmul EArith (@nmul EArith (Fin cs) (@nsub EArith (@nZ EArith 2) (Fin cs))) (Fin 1)) = Fin r).
    { cbn [nmul nsub EArith nsqrt]. unfold nZ. cbn [nlit EArith er_sub er_mul]. rewrite Rlit_0. rewrite sqrt_fin; [eexists; reflexivity|]. nra. }
    destruct Es as [r Es]. rewrite Es. cbn. destruct (Req_EM_T q 0); [lra|]. repeat f_equal. field. lra. }
  rewrite Hps. generalize (cma_cond P (cs_nfev s + Z.of_nat (cm_p P)) [Fin 0]). intros cond.
  assert (Hpc : cma_pc P s cond [Fin 0] = [Fin 0]).
  { unfold cma_pc. change (@num_arith ENum) with EArith. rewrite (z_d _ HP), Em, (nN_E 1). change (INR 1) with 1. rewrite cc_C by lra.
    rewrite (z_pc _ _ _ HZ), Eq. set (cc := @cma_cc RArith 1 1) in *. 
    assert (Es : exists r, @nsqrt EArith (@nmul EArith (@nmul EArith (Fin cc) (@nsub EArith (@nZ EArith 2) (Fin cc))) (Fin 1)) = Fin r).
    { cbn [nmul nsub EArith nsqrt]. unfold nZ. cbn [nlit EArith er_sub er_mul]. rewrite Rlit_0. rewrite sqrt_fin; [eexists; reflexivity|]. nra. }
    destruct Es as [r Es]. rewrite Es. destruct cond; cbn; [destruct (Req_EM_T q 0); [lra|]|]; repeat f_equal; field; lra. }
  rewrite Hpc, EC, Eq.
  match goal with |- context [@cov_update EArith 1 ?a1 ?a2 ?a3 ?a4 ?a5 ?a6 ?a7 ?a8] => assert (HC : exists c', c0 / 2 <= c' <= 1 /\ @cov_update EArith 1 a1 a2 a3 a4 a5 a6 a7 a8 = [[Fin c']]) end.
  { match goal with |- context [@cov_update EArith 1 _ _ _ _ ?y _ _ _] => assert (Hy : y = mfin [[0]]) by (cbn; destruct (Req_EM_T q 0); [lra|]; repeat f_equal; field; lra); rewrite Hy end.
    change [[Fin c]] with (mfin [[c]]). change [Fin 0] with (fin [0]). rewrite cov_update_fin, c1_val, cmu_val.
    assert (0 <= 200 / 629 * @cma_cc RArith 1 1 * (2 - @cma_cc RArith 1 1) <= 200 / 629) by nra.
    set (cc := @cma_cc RArith 1 1) in *.
    destruct cond; (eexists; split; [|cbn; reflexivity]); rewrite ?Rlit_0; nra. }
  destruct HC as (c' & Hc' & HC). rewrite !HC. clear HC.
  rewrite (z_D _ _ _ HZ), EB, Ei.
  match goal with |- context [@vnorm EArith [Fin 0]] => assert (Hn : @vnorm EArith [Fin 0] = Fin 0) by (unfold vnorm, vdot; cbn; rewrite ?Rlit_0; destruct (Rlt_dec _ _); [lra|]; f_equal; replace (0 + 0 * 0) with 0 by ring; apply sqrt_0) end.
  rewrite Hn. destruct (chind_C 1 (le_n 1)) as (ch & Pch & Ech). rewrite Ech.
  match goal with |- context [@nmul EArith (Fin q) (@nexp EArith ?x)] => assert (HS : exists q', q0 / 3 <= q' <= 1 /\ @nmul EArith (Fin q) (@nexp EArith x) = Fin q') end.
  { set (kc := @cma_cs RArith 1 1) in *. set (kd := @cma_damps RArith 1 1) in *. clearbody kc kd. cbn [ndiv EArith]. rewrite !div_fin by lra. unfold n1, nZ. cbn. rewrite ?Rlit_0. eexists. split; [|reflexivity].
    set (k1 := kc / kd).
    assert (Hk1 : 0 < k1 <= 1).
    { unfold k1. split; [apply Rdiv_lt_0_compat; lra|]. apply Rmult_le_reg_r with (kd); [lra|]. unfold Rdiv. rewrite Rmult_assoc, Rinv_l by lra. lra. }
    replace (k1 * (0 / ch - 1)) with (- k1) by (field; lra).
    assert (He : / 3 <= exp (- k1) <= 1).
    { rewrite exp_Ropp. assert (1 <= exp k1) by (pose proof (exp_ineq1_le k1); lra). assert (exp k1 <= exp 1) by (destruct (Req_dec k1 1) as [->|]; [lra|left; apply exp_increasing; lra]).
      pose proof exp_le_3. split; [apply Rinv_le_contravar; lra|]. rewrite <- Rinv_1. apply Rinv_le_contravar; lra. }
    split; [apply Rle_trans with (q * / 3); [lra|apply Rmult_le_compat_l; lra]|]. apply Rle_trans with (1 * 1); [apply Rmult_le_compat; lra|lra]. }
  destruct HS as (q' & Hq' & HS). rewrite HS.
  match goal with |- yields (bind ?m _) _ => assert (HB : yields m (fun x : @matrix EArith * evec * @matrix EArith * @matrix EArith * Z => exists b' iv', c0 / 2 <= b' <= 1 /\ fst x = ([[Fin b']], [Fin 1], [[Fin c']], [[Fin iv']]))) end.
  { match goal with |- yields (if ?t then _ else _) _ => destruct t end.
    - match goal with |- yields (bind ?m _) _ => set (mm := m) end. intros w. eexists. eexists. split; [reflexivity|]. cbn.
      rewrite sqrt_1.
      exists (c' + 0). eexists. split; [lra|]. destruct (Rlt_dec 1 0); [lra|]. destruct (Req_EM_T 1 0); [lra|]. cbn. repeat f_equal. lra.
    - apply yields_ret. exists b, iv. split; [lra|]. reflexivity. }
  eapply yields_bind; [exact HB|]. intros [[[[B D] C] inv] ee] (b' & iv' & Hb' & E4). cbn [fst] in E4. injection E4 as -> -> -> ->.
  apply yields_ret. cbn [fst snd cs_pen]. split; [|split; [exact Hini|]].
  - constructor; cbn; eauto.
  - intros Hit2 Hq3 Hc3. rewrite (z_max _ HP), (z_sg _ HP), (z_ftol _ HP), (z_xtol _ HP). apply z_conv; try lra; [lia|exact (z_lim _ HP)].
Qed.

Lemma int_part_is r z : IZR z <= r -> r < IZR z + 1 -> Int_part r = z.
Proof.
  intros H1 H2. destruct (base_Int_part r) as [H3 H4]. apply Z.le_antisymm.
  - apply Z.lt_succ_r, lt_IZR. rewrite succ_IZR. lra.
  - apply Z.lt_succ_r, lt_IZR. rewrite succ_IZR. lra.
Qed.

Lemma z_start : yields (cm_start pargs) (fun Ps => ZP (fst Ps) /\ Z1 1 1 (snd Ps) /\ pen_ini (cs_pen (snd Ps)) = true).
Proof.
  unfold cm_start. eapply yields_bind with (R := fun _ => True).
  - unfold cma_check. cbv zeta.
    repeat (eapply yields_bind with (R := fun _ => True); [|intros [] _]).
    all: try (intros w; eexists; eexists; split; [reflexivity|exact I]).
    + cbn. unfold Rlit. cbn. replace (Rleb 1 0) with false by (symmetry; apply Rleb_false; lra). intros w. eexists. eexists. split; [reflexivity|exact I].
    + unfold outside_open. cbn. unfold Rlit. cbn. replace (Rltb 0 (1 / 2)) with true by (symmetry; apply Rltb_true; lra). replace (Rleb (1 / 2) 1) with true by (symmetry; apply Rleb_true; lra).
      intros w. eexists. eexists. split; [reflexivity|exact I].
  - intros [] _. unfold cm_prefix. eapply yields_bind with (R := fun xP : evec * @CMAParams ENum => fst xP = [Fin (-2)] /\ ZP (mkCMAParams (cm_p (snd xP)) (cm_d (snd xP)) (cm_mu (snd xP)) (cm_w (snd xP)) (cm_mueff (snd xP)) (cm_xm (snd xP)) (cm_xstd (snd xP))
                         (cm_pen (snd xP)) (cm_maxiter (snd xP)) (cm_xtol (snd xP)) (cm_ftol (snd xP)) (cm_insigma (snd xP)) 25 (cm_mode (snd xP)) None)).
    + unfold cma_setup. eapply yields_bind; [apply (yields_ret _ (fun m => m = Serial)); reflexivity|]. intros mode ->.
      eapply yields_bind; [apply (yields_ret _ (fun x => x = ([Fin (-1)], [Fin 1]))); reflexivity|]. intros [lo up] E2. injection E2 as -> ->.
      eapply yields_bind; [apply (yields_ret _ (fun m => m = true)); reflexivity|]. intros pen ->.
      eapply yields_bind; [apply (yields_ret _ (fun x => x = [Fin (-2)]))|].
      { cbn. unfold Rlit. cbn. match goal with |- context [Req_EM_T ?x 0] => replace x with 1 by lra end.
        destruct (Req_EM_T 1 0); [lra|]. repeat f_equal. lra. }
      intros xm ->. eapply yields_bind; [apply (yields_ret _ (fun x => x = 1%Z))|].
      { cbn. unfold Rlit. cbn. replace (1 / 2 * 2) with 1 by lra. destruct (Rlt_dec 1 0); [lra|]. unfold Rfloor. 
        apply int_part_is; lra. }
      intros mu ->. apply yields_ret. cbn [fst snd]. split; [reflexivity|]. constructor; try reflexivity. cbn. lia.
    + intros [xm P0] [E1 HP]. cbn [fst snd] in *. subst xm. eapply yields_bind with (R := fun x => x = (None, 25%Z)).
      * unfold cma_alloc. cbv zeta. eapply yields_bind; [apply (yields_ret _ (fun m => m = None)); reflexivity|]. intros nout ->.
        repeat (eapply yields_bind; [apply (yields_ret _ (fun _ => True)); exact I|]; intros [] _).
        eapply yields_bind; [|intros ilim Hl; apply yields_ret; exact (f_equal (pair None) Hl)].
        rewrite nN_E. unfold nZ. cbn [num_arith ENum EArith nadd nmul ndiv nlit er_mul caa pargs a_popsize a_bounds nd_len length].
        rewrite div_fin by (unfold Rlit; cbn; lra). cbn [er_add ntrunc ENum er_trunc]. rewrite !Rlit_0. change (INR (length prows)) with 1.
        destruct (Rlt_dec _ _); [lra|]. cbn [orelse]. apply yields_ret. unfold Rfloor. apply int_part_is; lra.
      * intros [nout ilim] E2. injection E2 as -> ->. apply yields_ret. cbn [fst snd cs_pen]. split; [exact HP|]. split; [|reflexivity].
        pose proof (z_d _ HP) as Hd. cbn [cm_d] in Hd. rewrite Hd.
        constructor; cbn; rewrite ?Rlit_0; try reflexivity.
        -- exists 0. reflexivity.
        -- exists 1. split; [reflexivity|lra].
        -- exists 1. split; [reflexivity|lra].
        -- exists 1. split; [reflexivity|lra].
        -- exists 1. reflexivity.
Qed.

Lemma pargs_rates : RatesLt (length prows) (1 / 2) (a_popsize (caa pargs)).
Proof. apply rates_enough; cbn [length prows pargs caa a_popsize]; [lia|lra|]. change (INR 1) with 1. lra. Qed.

(** A run of cmaes with the Penalize constraint, started below the lower bound, whose initial phase ends
    in the third iteration with the mean still there. *)
Theorem C30_hypotheses : exists w P s0 w0 t w1 t' st w2,
  EnvOK /\ (forall g, isfin (fst (e_randn g))) /\ EighPD /\ PctOK /\ MedOK /\ EmptyLen /\ (forall (x : list er) (y : er), Val x y -> isfin y) /\
  FiniteArgs pargs prows 1 (1 / 2) /\ prows <> [] /\ RatesLt (length prows) (1 / 2) (a_popsize (caa pargs)) /\
  a_backend (caa pargs) <> Some "mpi"%string /\ a_constraints (caa pargs) = Some "Penalize"%string /\
  cm_start pargs w = (inl (P, s0), w0) /\ visited (cma_drv P) false (fun _ => True) 0 s0 w0 3 t /\ pen_ini (cs_pen t) = false /\
  cma_step P (3 + 1) t w1 = (inl (t', st), w2) /\ nth 0 (cs_xmean t) (Fin 0) = Fin (-2).
Proof.
  destruct (z_start (@mkSt ENum EP (0%nat, tt) [] None)) as ([P s0] & w0 & EP0' & HP & HZ0 & Hi0). cbn [fst snd] in *.
  assert (HB : a_backend (caa pargs) <> Some "mpi"%string) by discriminate.
  assert (HC : a_constraints (caa pargs) = Some "Penalize"%string) by reflexivity.
  assert (Hrows : prows <> []) by discriminate.
  destruct (CmRun.start_gives ep_ok pargs prows 1 (1 / 2) pargs_ok Hrows pargs_rates (fun H => False_ind _ (HB H)) _ _ _ EP0') as (HR & HI0 & _).
  destruct (start_pen ep_empty pargs prows 1 (1 / 2) pargs_ok HB HC _ _ _ EP0') as (Hm & Hpt & Hpen0 & Lo0). cbn [fst snd] in *.
  change (length prows) with 1%nat in *.
  assert (HP0 : PI prows s0) by (split; [exact HI0|split; assumption]).
  assert (HPI : forall it s w r w', PI prows s -> cma_step P it s w = (inl r, w') -> PI prows (fst r)).
  { intros it s w r w' HI HE. 
    exact (proj1 (safe_gives _ _ _ _ (step_both ep_ok ep_randn ep_eigh ep_pct ep_med ep_fin prows (fun _ _ => True) P it s HR Hm Hpt HI) _ _ _ HE)). }
  assert (Hstep : forall it s q0 c0 w, Z1 q0 c0 s -> 0 < q0 -> 0 < c0 -> PI prows s -> (1 <= it <= 8)%Z -> exists t st w',
     cma_step P it s w = (inl (t, st), w') /\ Z1 (q0 / 3) (c0 / 2) t /\ PI prows t /\ pen_ini (cs_pen t) = pen_ini (cs_pen s) && negb (2 <? it)%Z /\
     ((it <= 2)%Z -> / 100 <= q0 / 3 -> / 100 <= c0 / 2 -> st = None)).
  { intros it s q0 c0 w HZ Hq Hc (HI & Hpen & Lo) Hit.
    destruct (z_step P it s q0 c0 HP HR HZ Hq Hc HI Hpen Hit w) as ([t st] & w' & Et & HZ' & Hp & Hn). cbn [fst snd] in *.
    exists t, st, w'. split; [exact Et|]. split; [exact HZ'|]. split; [|split; assumption].
    exact (HPI it s w (t, st) w' (conj HI (conj Hpen Lo)) Et). }
  destruct (Hstep 1%Z s0 1 1 w0 HZ0 ltac:(lra) ltac:(lra) HP0 ltac:(lia)) as (s1 & st1 & w1 & E1 & HZ1 & HI1 & Hp1 & Hn1).
  specialize (Hn1 ltac:(lia) ltac:(lra) ltac:(lra)). subst st1.
  destruct (Hstep 2%Z s1 _ _ w1 HZ1 ltac:(lra) ltac:(lra) HI1 ltac:(lia)) as (s2 & st2 & w2 & E2 & HZ2 & HI2 & Hp2 & Hn2).
  specialize (Hn2 ltac:(lia) ltac:(lra) ltac:(lra)). subst st2.
  destruct (Hstep 3%Z s2 _ _ w2 HZ2 ltac:(lra) ltac:(lra) HI2 ltac:(lia)) as (s3 & st3 & w3 & E3 & HZ3 & HI3 & Hp3 & _).
  destruct (Hstep 4%Z s3 _ _ w3 HZ3 ltac:(lra) ltac:(lra) HI3 ltac:(lia)) as (s4 & st4 & w4 & E4 & _ & _ & _ & _).
  exists (@mkSt ENum EP (0%nat, tt) [] None), P, s0, w0, s3, w3, s4, st4, w4.
  split; [exact ep_ok|]. split; [exact ep_randn|]. split; [exact ep_eigh|]. split; [exact ep_pct|]. split; [exact ep_med|]. split; [exact ep_empty|].
  split; [exact ep_fin|]. split; [exact pargs_ok|]. split; [exact Hrows|]. split; [exact pargs_rates|]. split; [exact HB|]. split; [exact HC|].
  split; [exact EP0'|]. split; [|split; [|split; [exact E4|rewrite (z_x _ _ _ HZ3); reflexivity]]].
  - assert (Hit : forall it s w s' w', cma_step P it s w = (inl (s', None), w') -> iterate (cma_drv P) false it s w = (inl (s', None), w')).
    { intros it s w s' w' H. unfold iterate, bind. cbn [d_step cma_drv]. rewrite H. reflexivity. }
    eapply vis_next; [apply Hit, E1|exact I|reflexivity|]. eapply vis_next; [apply Hit, E2|exact I|reflexivity|]. eapply (vis_here (cma_drv P) false _ 2). exact E3.
  - rewrite Hp3. change (2 <? 3)%Z with true. apply Bool.andb_false_r.
Qed.

(** One dimension, mean 5 reached from 4: the weight grows; the mirrored position leaves it alone. *)
Lemma C30_asymmetry : grows 1 1 (1 / 10) 1 5 4 /\ ~ grows 1 1 (1 / 10) 1 (-5) (-4).
Proof.
  split; [|apply below_no_growth; lra]. unfold grows. change (INR 1) with 1. replace (1 / 1) with 1 by lra. rewrite sqrt_1, Rmax_left by lra. lra.
Qed.
