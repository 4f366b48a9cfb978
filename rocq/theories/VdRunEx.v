(** C31: calls of vdcma that meet the hypotheses of the theorems (exact arithmetic). *)
From Coq Require Import Reals Lra.
From Verif Require Import Base Num NumR NumE Env Common DE Mat CMAES VDCMA Weights Inst PlainEnv FeasPso FeasEx VdReal Visit VdRun.
Open Scope R_scope.

(** computations that do not fail *)
Section Total.
  Context {E : Env ENum}.
  Definition total {A} (m : M A) : Prop := forall w, exists a w', m w = (inl a, w').
  Lemma total_ret {A} (a : A) : total (ret a).
  Proof. intros w. eexists. eexists. reflexivity. Qed.
  Lemma total_bind {A B} (m : M A) (k : A -> M B) (R : A -> Prop) :
    total m -> gives m R -> (forall a, R a -> total (k a)) -> total (bind m k).
  Proof.
    intros Hm HR Hk w. destruct (Hm w) as (a & w1 & E1). destruct (Hk a (HR _ _ _ E1) w1) as (b & w2 & E2).
    exists b, w2. unfold bind. rewrite E1. exact E2.
  Qed.
  Lemma total_bind0 {A B} (m : M A) (k : A -> M B) : total m -> (forall a, total (k a)) -> total (bind m k).
  Proof. intros Hm Hk. apply (total_bind m k (fun _ => True)); [exact Hm|apply gives_any|auto]. Qed.
  Lemma total_draw {A} (f : RNG -> A * RNG) : total (draw f).
  Proof. intros w. unfold draw. destruct (f (fst (rs w))) as [v r]. eexists. eexists. reflexivity. Qed.
  Lemma total_replicateM {A} n (m : M A) : total m -> total (replicateM n m).
  Proof.
    intros H. induction n as [|n IH]; cbn [replicateM]; [apply total_ret|].
    apply total_bind0; [exact H|]. intros a. apply total_bind0; [exact IH|]. intros l. apply total_ret.
  Qed.
  Lemma total_mapM {A B} (f : A -> M B) l : (forall a, total (f a)) -> total (mapM f l).
  Proof.
    intros H. induction l as [|x l IH]; cbn [mapM]; [apply total_ret|].
    apply total_bind0; [apply H|]. intros b. apply total_bind0; [exact IH|]. intros bs. apply total_ret.
  Qed.
  Lemma gives_mapM {A B} (f : A -> M B) l : gives (mapM f l) (fun r => length r = length l).
  Proof.
    induction l as [|x l IH]; cbn [mapM]; [apply gives_ret; reflexivity|].
    eapply gives_bind; [apply gives_any|]. intros b _. eapply gives_bind; [exact IH|]. intros bs H. apply gives_ret. cbn. congruence.
  Qed.
End Total.

Definition EV : Env ENum := EE (fun _ => Fin 0).
#[local] Existing Instance EV.

Definition vrows (d : nat) : list (list er) := repeat [Fin (-1); Fin 1] d.
Definition vargs (d : nat) : @CMAArgs ENum :=
  @mkCMAArgs ENum (@mkArgs ENum true (@D2 EArith 2 (vrows d)) (Some (@D1 EArith (repeat (Fin 0) d))) true 5 4 (Some 0%Z) (Fin 0) (Fin 0) None 1 None false (Fin 1) CbNone)
    (Fin (1 / 10)) (Fin (1 / 2)).

Lemma vargs_ok d : FiniteArgs (vargs d) (vrows d) (1 / 10) (1 / 2).
Proof.
  constructor; try reflexivity.
  - apply Forall_forall. intros r Hr. apply repeat_spec in Hr. subst. exists (-1), 1. split; [reflexivity|lra].
  - cbn. intros x Hx. injection Hx as <-. exists (repeat 0 d). split.
    + f_equal. induction d as [|d IH]; cbn; [reflexivity|f_equal; exact IH].
    + unfold vrows. rewrite !repeat_length. reflexivity.
  - cbn. lra.
Qed.
Lemma ev_randn g : isfin (fst (@e_randn ENum EV g)).
Proof. exact I. Qed.
Lemma ev_ok : @EnvOK ENum EV.
Proof. apply EE_OK. Qed.

Lemma total_prefix d : total (vd_prefix (vargs d)).
Proof.
  unfold vd_prefix. apply total_bind0.
  - unfold cma_setup. cbn. apply total_bind0; [apply total_ret|]. intros mode. apply total_bind0; [apply total_ret|]. intros [lo up].
    apply total_bind0; [apply total_ret|]. intros pen. apply total_bind0; [apply total_ret|]. intros xm.
    apply total_bind0; [apply total_ret|]. intros mu. apply total_ret.
  - intros [xm P0]. apply total_bind0; [apply total_replicateM, total_draw|]. intros z.
    apply total_bind0; [|intros [nout ilim]; apply total_ret].
    unfold cma_alloc. cbv zeta. apply total_bind0; [apply total_ret|]. intros nout.
    apply total_bind0; [apply total_ret|]. intros _. apply total_bind0; [apply total_ret|]. intros _. apply total_bind0; [apply total_ret|]. intros _.
    apply total_bind0; [|intros; apply total_ret]. rewrite nN_E. unfold nZ. cbn [num_arith ENum EArith nadd nmul ndiv nlit er_mul].
    rewrite div_fin by (unfold Rlit; cbn; lra). apply total_ret.
Qed.

Lemma lt_len {A} (l : list A) n k : length l = n -> (k < n)%nat -> (k < length l)%nat.
Proof. intros <-. auto. Qed.
Lemma const_repeat {A} (a : A) l : Forall (eq a) l -> l = repeat a (length l).
Proof. induction 1 as [|x l <- H IH]; cbn; [reflexivity|f_equal; exact IH]. Qed.
Lemma fin_repeat r n : repeat (Fin r) n = fin (repeat r n).
Proof. induction n as [|n IH]; cbn; [reflexivity|f_equal; exact IH]. Qed.
Lemma randn_half n : gives (randn_vec n) (fun z : evec => z = repeat (Fin (1 / 2)) n).
Proof.
  eapply gives_conseq; [apply (gives_replicateM n _ (eq (Fin (1 / 2))))|].
  - apply gives_draw. reflexivity.
  - cbv beta. intros z [Hl HF]. rewrite <- Hl. apply const_repeat. exact HF.
Qed.

Lemma prefix_facts d : (0 < d)%nat -> gives (vd_prefix (vargs d)) (fun Ps => let P := fst Ps in let s := snd Ps in
  cm_p P = 4%nat /\ cm_pen P = false /\ cm_mode P = Serial /\ cm_nout P = None /\ cm_maxiter P = 5%Z /\
  vs_xmean s = repeat (Fin 0) d /\ vs_sigma s = Fin (1 / 10) /\ vs_vvec s = repeat (Fin (1 / 2 / sqrt (INR d))) d).
Proof.
  intros Hd. unfold vd_prefix. eapply gives_bind with (R := fun xP : evec * @CMAParams ENum =>
    cm_p (snd xP) = 4%nat /\ cm_pen (snd xP) = false /\ cm_mode (snd xP) = Serial /\ cm_maxiter (snd xP) = 5%Z /\ cm_d (snd xP) = d /\
    fst xP = repeat (Fin 0) d).
  - unfold cma_setup. eapply gives_bind; [apply (gives_ret _ (fun m => m = Serial)); reflexivity|]. intros mode ->.
    cbn [unpack_bounds vargs caa a_bounds a_constraints a_x0 cma_cons_check nd_vec].
    eapply gives_bind; [apply (gives_ret _ (fun lu : evec * evec => lu = (repeat (Fin (-1)) d, repeat (Fin 1) d)))|].
    { f_equal; unfold vrows; clear; induction d as [|d IH]; cbn; try reflexivity; f_equal; exact IH. }
    intros [lo up] Hlu. injection Hlu as -> ->.
    eapply gives_bind; [apply (gives_ret _ (fun m => m = false)); reflexivity|]. intros pen ->.
    eapply gives_bind; [apply (gives_ret _ (fun x : evec => x = repeat (Fin 0) d))|].
    { unfold standardize, cma_xm, cma_xstd, vdiv, vsub. clear. induction d as [|d IH]; [reflexivity|]. cbn [repeat map2]. f_equal; [|exact IH].
      cbn [num_arith ENum EArith nadd nmul ndiv nsub nlit er_add er_sub er_mul]. rewrite div_fin by (unfold Rlit; cbn; lra). f_equal. unfold Rlit. cbn. field. }
    intros xm Hxm. eapply gives_bind; [apply gives_any|]. intros mu _. apply gives_ret. cbn.
    repeat split; try reflexivity; [unfold vrows; apply repeat_length|exact Hxm].
  - intros [xm P0] (Hp & Hpen & Hmode & Hmax & Hdd & Hx). cbn [fst snd] in *.
    eapply gives_bind; [apply randn_half|]. intros z Hz. cbv beta in Hz.
    eapply gives_bind with (R := fun x => fst x = None).
    + unfold cma_alloc. eapply gives_bind; [apply (gives_ret _ (fun m => m = None)); reflexivity|]. intros nout ->.
      eapply gives_bind; [apply gives_any|]. intros _ _. eapply gives_bind; [apply gives_any|]. intros _ _. eapply gives_bind; [apply gives_any|]. intros _ _.
      eapply gives_bind; [apply gives_any|]. intros ilim _. apply gives_ret. reflexivity.
    + intros [nout ilim] Hn. cbn [fst] in Hn. subst nout. apply gives_ret. cbn [fst snd cm_p cm_pen cm_mode cm_nout cm_maxiter vs_xmean vs_sigma vs_vvec].
      split; [exact Hp|]. split; [exact Hpen|]. split; [exact Hmode|]. split; [reflexivity|]. split; [exact Hmax|]. split; [exact Hx|]. split; [reflexivity|].
      rewrite Hz, Hdd, nN_E, sqrt_fin by apply pos_INR. clear - Hd.
      assert (Hs : sqrt (INR d) <> 0) by (apply Rgt_not_eq, sqrt_lt_R0, lt_0_INR; exact Hd).
      rewrite fin_repeat, fin_repeat. erewrite map_fin with (g := fun x => x / sqrt (INR d)); [|intros; apply div_fin; exact Hs].
      f_equal. generalize (sqrt (INR d)). intros q. clear. induction d as [|d IH]; cbn; [reflexivity|f_equal; exact IH].
Qed.

Lemma total_step P s it : cm_pen P = false -> cm_mode P = Serial -> cm_nout P = None -> (it <= cm_maxiter P)%Z -> vs_inj s = false ->
  total (vd_step P it s).
Proof.
  intros H1 H2 H3 H4 H5. unfold vd_step. cbv zeta. apply total_bind0.
  - unfold vd_sample. rewrite H5. apply total_bind0; [apply total_replicateM, total_replicateM, total_draw|]. intros. apply total_ret.
  - intros ary. apply total_bind0.
    + unfold cma_fitness. rewrite H1. apply total_bind0; [|intros; apply total_ret]. unfold cma_eval. rewrite H2.
      apply total_bind0; [|intros [x f]; apply total_ret]. apply total_bind0; [|intros; apply total_ret].
      apply total_mapM. intros x w. eexists. eexists. reflexivity.
    + intros [[fit valid] pen]. apply total_bind0.
      * unfold cma_record, rec_write. rewrite H3. apply total_ret.
      * intros r. apply total_bind0.
        { unfold hist_set. destruct (Z.ltb_spec (cm_maxiter P) it); [lia|]. apply total_ret. }
        intros hist. destruct (vd_sigma P s (e_argsort fit)) as [[ps sigma] cond].
        match goal with |- total (match ?X with pair _ _ => _ end) => destruct X as [v dv] end. apply total_ret.
Qed.

Lemma first_moved P s it d v : (0 < d)%nat -> cm_d P = d -> cm_p P = 4%nat -> cm_pen P = false -> cm_mode P = Serial ->
  (exists w, cm_w P = fin w /\ w <> [] /\ Forall (fun x => 0 < x) w) -> (1 <= cm_mu P)%nat ->
  vs_inj s = false -> vs_xmean s = repeat (Fin 0) d -> vs_sigma s = Fin (1 / 10) -> vs_dvec s = repeat (Fin 1) d ->
  vs_vn s = fin v -> length v = d -> Forall (fun x => 0 < x) v -> (exists q, 0 <= q /\ vs_nv2 s = Fin q) ->
  gives (vd_step P it s) (fun r => Moved (fst r)).
Proof.
  intros Hd Hcd Hp Hpen Hmode (w & Hw & Hwn & Hwp) Hmu Hi Hx Hs Hdv Hv Lv Pv (q & Hq0 & Hq).
  unfold vd_step. cbv zeta. eapply gives_bind with (R := fun ary : @matrix (@num_arith ENum) => length ary = 4%nat /\
    forall k, (k < 4)%nat -> exists y, nth 0 (nth k ary []) (Fin 0) = Fin y /\ 0 < y).
  { unfold vd_sample. rewrite Hi, Hp. eapply gives_bind; [apply gives_replicateM, randn_half|]. cbv beta. intros arz [La Ha].
    cbv zeta. apply gives_ret. rewrite map_length. split; [exact La|]. intros k Hk.
    rewrite Forall_forall in Ha. pose proof (Ha (nth k arz []) (nth_In _ _ (lt_len _ _ _ La Hk))) as Hz. rewrite Hcd in Hz.
    match goal with |- context [nth k (map ?f arz) []] => enough (HH : exists y, nth 0 (f (repeat (Fin (1 / 2)) d)) (Fin 0) = Fin y /\ 0 < y);
      [destruct HH as (y & Ey & Py); exists y; split; [|exact Py]; etransitivity; [|exact Ey]; apply (f_equal (fun l : list er => nth 0 l (Fin 0)));
       etransitivity; [exact (nth_indep (map f arz) [] (f []) ltac:(rewrite map_length; exact (lt_len _ _ _ La Hk)))|];
       etransitivity; [exact (map_nth f arz [] k)|]; exact (f_equal f Hz)|] end.
    rewrite Hdv, Hv, Hq. change (@num_arith ENum) with EArith. cbv beta.
    destruct d as [|d]; [lia|]. destruct v as [|v0 v]; [discriminate|].
    rewrite !fin_repeat. change (@n1 EArith) with (Fin 1).
    assert (Ed : @vdot EArith (fin (repeat (1 / 2) (S d))) (fin (v0 :: v)) = Fin (rdot (repeat (1 / 2) (S d)) (v0 :: v))) by apply vdot_fin.
    rewrite Ed. clear Ed. cbn [nsqrt nadd nsub EArith er_add]. rewrite sqrt_fin by lra.
    set (b := rdot _ _).
    assert (Hb : 0 <= b).
    { subst b. apply rdot_pos_nonneg; [apply Forall_forall; intros x Hx0; apply repeat_spec in Hx0; subst; lra|].
      eapply Forall_impl; [|exact Pv]. cbv beta. intros; lra. }
    clearbody b. eexists. split; [reflexivity|]. inversion Pv; subst.
    assert (1 <= sqrt (1 + q)) by (rewrite <- sqrt_1 at 1; apply sqrt_le_1; lra). 
    assert (0 <= (sqrt (1 + q) - 1) * (b * v0)) by (apply Rmult_le_pos; [lra|apply Rmult_le_pos; lra]). lra. }
  intros ary [La Hary]. eapply gives_bind with (R := fun fvp : evec * @matrix (@num_arith ENum) * @PenState ENum => length (fst (fst fvp)) = 4%nat).
  { unfold cma_fitness. rewrite Hpen. eapply gives_bind with (R := fun f : evec => length f = 4%nat).
    - unfold cma_eval. rewrite Hmode. eapply gives_bind with (R := fun xf : @matrix (@num_arith ENum) * evec => length (snd xf) = 4%nat).
      + unfold eval_pop. eapply gives_bind; [apply gives_mapM|]. intros f Hf. apply gives_ret. cbv beta in Hf. cbn [snd]. rewrite Hf, !map_length. exact La.
      + intros [x f] Hf. apply gives_ret. exact Hf.
    - intros f Hf. apply gives_ret. exact Hf. }
  intros [[fit valid] pen] Lf. cbn [fst] in Lf. eapply gives_bind; [apply gives_any|]. intros r _. eapply gives_bind; [apply gives_any|]. intros hist _.
  destruct (vd_sigma P s (e_argsort fit)) as [[ps sigma] cond].
  match goal with |- gives (match ?X with pair _ _ => _ end) _ => destruct X as [vv dv] end.
  apply gives_ret. unfold Moved. cbn [fst vs_xmean vs_xold]. intros HEq.
  apply (f_equal (fun l : list er => nth 0 l NaN)) in HEq. revert HEq.
  change (@num_arith ENum) with EArith. rewrite Hx, Hw, Hs, Hcd.
  destruct d as [|d]; [lia|]. unfold vadd, vsub, vmat, vscale. cbn [seq map map2 repeat nth].
  match goal with |- context [@vdot EArith (fin w) ?c] => set (cl := c) end.
  assert (Hcl : exists c, cl = fin c /\ c <> [] /\ Forall (fun x => 0 < x) c).
  { assert (HP : forall k, In k (firstn (cm_mu P) (e_argsort fit)) -> (k < 4)%nat).
    { intros k Hk. pose proof (eo_argsort ev_ok) as [HAP _]. specialize (HAP fit).
      assert (Hin : In k (e_argsort fit)) by (rewrite <- (firstn_skipn (cm_mu P)); apply in_or_app; left; exact Hk).
      apply (Permutation_in _ HAP) in Hin. apply in_seq in Hin. change (length fit) with (@length er fit) in *. rewrite Lf in Hin. lia. }
    assert (HL : firstn (cm_mu P) (e_argsort fit) <> []).
    { pose proof (eo_argsort ev_ok) as [HAP _]. specialize (HAP fit). apply Permutation_length in HAP. rewrite seq_length, Lf in HAP.
      destruct (e_argsort fit); [discriminate|]. destruct (cm_mu P); [lia|]. discriminate. }
    subst cl. unfold col. rewrite map_map. revert HP HL. generalize (firstn (cm_mu P) (e_argsort fit)). intros top HP HL.
    assert (HG : exists c, map (fun x => nth 0 (nth x (map (fun y => map2 (@nadd EArith) (Fin 0 :: repeat (Fin 0) d) (map (fun x0 => @nmul EArith (Fin (1 / 10)) x0) y)) ary) []) (@n0 EArith)) top = fin c /\ length c = length top /\ Forall (fun x => 0 < x) c).
    { clear HL. induction top as [|k top IH]; [exists []; repeat split; constructor|].
      destruct IH as (c & Ec & Lc & Pc); [intros; apply HP; right; assumption|].
      destruct (Hary k (HP k (or_introl eq_refl))) as (y & Hy & Hy0).
      exists (0 + 1 / 10 * y :: c). cbn [map]. rewrite Ec. split; [|split; [cbn; congruence|constructor; [lra|exact Pc]]]. f_equal.
      match goal with |- context [nth k (map ?f ary) []] => rewrite (nth_indep (map f ary) [] (f [])) by (rewrite map_length; exact (lt_len _ _ _ La (HP k (or_introl eq_refl)))); rewrite (map_nth f) end.
      destruct (nth k ary []) as [|y0 yr] eqn:EY.
      - cbn in Hy. injection Hy as <-. lra.
      - cbn in Hy. subst y0.
        exact (f_equal (fun l : list er => nth 0 (map2 (@nadd EArith) (Fin 0 :: repeat (Fin 0) d) (map (fun x0 => @nmul EArith (Fin (1 / 10)) x0) l)) (@n0 EArith)) EY). }
    destruct HG as (c & Ec & Lc & Pc). exists c. split; [exact Ec|]. split; [|exact Pc]. intros ->. destruct top; [apply HL; reflexivity|discriminate]. }
  destruct Hcl as (c & -> & Hc & Pc). rewrite vdot_fin, vsum_fin. cbn.
  intros HEq. injection HEq as HEq.
  assert (0 < rdot w c).
  { destruct w as [|w0 w]; [contradiction|]. destruct c as [|c0 c]; [contradiction|]. inversion Hwp; inversion Pc; subst.
    change (0 < w0 * c0 + rdot w c). assert (0 <= rdot w c).
    { apply rdot_pos_nonneg; eapply Forall_impl; try eassumption; cbv beta; intros; lra. }
    nra. }
  lra.
Qed.

(** In every dimension >= 1 there is a run whose first iteration meets the premises of C31_positive and
    C31_step. *)
Theorem C31_hypotheses d : (0 < d)%nat -> exists w P s0 w0 t,
  EnvOK /\ (forall g, isfin (fst (e_randn g))) /\ FiniteArgs (vargs d) (vrows d) (1 / 10) (1 / 2) /\ length (vrows d) = d /\
  vd_prefix (vargs d) w = (inl (P, s0), w0) /\ (exists x, In x (vs_vvec s0) /\ x <> Fin 0) /\
  visited (vd_drv P) false Moved 0 s0 w0 1 t /\ vs_xmean t <> vs_xold t.
Proof.
  intros Hd. destruct (total_prefix d (@mkSt ENum EV (0%nat, tt) [] None)) as ([P s0] & w0 & EP).
  destruct (prefix_facts d Hd _ _ _ EP) as (Hp & Hpen & Hmode & Hno & Hmax & Hx & Hsg & Hvv). cbn [fst snd] in *.
  destruct (vd_prefix_gives (vargs d) _ _ _ EP) as (Hdd & Hw & Hm & Hdv & Lv & Hi & Hq & Hn & Hvn & Hnn). cbn [fst snd] in *.
  assert (Hcd : cm_d P = d) by (rewrite Hdd; apply repeat_length).
  assert (Hv0 : 0 < 1 / 2 / sqrt (INR d)) by (apply Rdiv_lt_0_compat; [lra|apply sqrt_lt_R0, lt_0_INR; exact Hd]).
  assert (HNZ : exists x, In x (vs_vvec s0) /\ x <> Fin 0).
  { rewrite Hvv. exists (Fin (1 / 2 / sqrt (INR d))). split; [destruct d; [lia|left; reflexivity]|]. intros H. injection H as H. lra. }
  destruct (vd_prefix_start ev_ok ev_randn (vargs d) (vrows d) _ _ (vargs_ok d) _ _ _ EP) as (_ & Hmu & _ & _). cbn [fst snd] in Hmu.
  destruct (vd_start ev_ok ev_randn _ _ _ _ _ _ _ _ (vargs_ok d) EP HNZ) as (_ & _ & _ & _ & HI).
  destruct (total_step P s0 1 Hpen Hmode Hno ltac:(lia) Hi w0) as ([t st] & w1 & ET).
  exists (@mkSt ENum EV (0%nat, tt) [] None), P, s0, w0, t.
  split; [exact ev_ok|]. split; [exact ev_randn|]. split; [apply vargs_ok|]. split; [apply repeat_length|]. split; [exact EP|]. split; [exact HNZ|].
  split; [exact (vis_here (vd_drv P) false Moved 0 s0 w0 t st w1 ET)|].
  destruct HI as ((dv & vv & H1 & L1 & P1 & H2 & L2 & P2 & H3 & H4 & H5 & H6) & _).
  assert (Evv : vv = repeat (1 / 2 / sqrt (INR d)) d) by (apply fin_inj; rewrite <- fin_repeat, <- Hvv; symmetry; exact H2).
  refine (first_moved P s0 1 d (dirn vv) Hd Hcd Hp Hpen Hmode _ Hmu Hi Hx Hsg _ H5 _ _ _ _ _ _ ET).
  - exists (@cma_weights RArith (cm_mu P)). destruct (C27_weights (cm_mu P) Hmu) as (Hl & HPw & _).
    split; [rewrite Hw; apply cma_weights_E; exact Hmu|]. split; [intros E0; rewrite E0 in Hl; cbn in Hl; lia|exact HPw].
  - rewrite Hdv, Hcd. reflexivity.
  - unfold dirn. rewrite map_length. congruence.
  - unfold dirn. apply Forall_forall. intros y Hy. apply in_map_iff in Hy. destruct Hy as (z & <- & Hz). rewrite Evv in Hz at 1. apply repeat_spec in Hz. subst z.
    apply Rdiv_lt_0_compat; [exact Hv0|]. apply sqrt_lt_R0. exact P2.
  - exists (rdot vv vv). split; [lra|exact H3].
Qed.
