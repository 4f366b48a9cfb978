(** hmc on a quadratic objective in exact arithmetic (C71): the proposals in closed form, the energy
    error of the integrator, and the acceptance rule that follows. *)
From Coq Require Import Reals Lra.
From Verif Require Import Base Num NumR NumE Env Common DE Sample Hoare EvalRules Gen Steps Best Inst Disc
  Valid Accept Chain Mcmc PropMc Hmc PropHmc HmcEq HmcReal SampInst.
Open Scope R_scope.

(** ** Specification *)
Fixpoint sumN (g : nat -> R) (n : nat) : R :=
  match n with O => 0 | S m => sumN g m + g m end.
(** the objective: curvature [a_i] around [m_i] along coordinate i *)
Definition quad (a m : nat -> R) (c : R) (x : list R) : R :=
  c + sumN (fun i => a i / 2 * (nth i x 0 - m i) ^ 2) (length x).

(** ** One coordinate: n + 1 leap-frog steps of size s in the potential a/2 x^2 *)
Section Orbit.
  Variables (a s p0 pe : R) (x P : nat -> R) (n : nat).
  Hypothesis H0 : P 0%nat = p0 - 1 / 2 * s * (a * x 0%nat).
  Hypothesis Hd : forall k, (k < n + 1)%nat -> x (S k) = x k + s * P k.
  Hypothesis Hk : forall k, (k < n)%nat -> P (S k) = P k - s * (a * x (S k)).
  Hypothesis He : pe = P n - 1 / 2 * s * (a * x (n + 1)%nat).

  (** the momentum at position k *)
  Definition pf (k : nat) : R := P k + 1 / 2 * s * (a * x k).
  Lemma pf_next k : (k < n)%nat ->
    x (S k) = x k + s * (pf k - 1 / 2 * s * (a * x k)) /\
    pf (S k) = pf k - 1 / 2 * s * (a * x k) - 1 / 2 * s * (a * x (S k)).
  Proof.
    intros H. unfold pf. rewrite (Hk k H). split; [rewrite Hd by lia; ring|]. field.
  Qed.
  Lemma pf_end : x (n + 1)%nat = x n + s * (pf n - 1 / 2 * s * (a * x n)) /\
    pe = pf n - 1 / 2 * s * (a * x n) - 1 / 2 * s * (a * x (n + 1)%nat).
  Proof.
    rewrite He. unfold pf. split; [|ring]. replace (n + 1)%nat with (S n) by lia. rewrite Hd by lia. ring.
  Qed.
  Lemma pf_0 : pf 0 = p0.
  Proof. unfold pf. rewrite H0. ring. Qed.

  Lemma orbit_energy :
    pe ^ 2 + a * (1 - s ^ 2 * a / 4) * x (n + 1)%nat ^ 2 = p0 ^ 2 + a * (1 - s ^ 2 * a / 4) * x 0%nat ^ 2.
  Proof.
    assert (Hi : forall k, (k <= n)%nat ->
      pf k ^ 2 + a * (1 - s ^ 2 * a / 4) * x k ^ 2 = p0 ^ 2 + a * (1 - s ^ 2 * a / 4) * x 0%nat ^ 2).
    { induction k as [|k IH]; intros Hle; [rewrite pf_0; reflexivity|].
      destruct (pf_next k) as [H1 H2]; [lia|]. rewrite <- IH by lia. rewrite H2, H1. field. }
    rewrite <- (Hi n) by lia. destruct pf_end as [H1 H2]. rewrite H2, H1. field.
  Qed.

  Lemma orbit_closed th om :
    cos th = 1 - s ^ 2 * a / 2 -> sin th = s * om -> om ^ 2 = a * (1 - s ^ 2 * a / 4) ->
    om * x (n + 1)%nat = om * x 0%nat * cos (INR (n + 1) * th) + p0 * sin (INR (n + 1) * th) /\
    pe = p0 * cos (INR (n + 1) * th) - om * x 0%nat * sin (INR (n + 1) * th).
  Proof.
    intros Hc Hs Ho.
    assert (Hstep : forall xa pa xb pb j,
      xb = xa + s * (pa - 1 / 2 * s * (a * xa)) ->
      pb = pa - 1 / 2 * s * (a * xa) - 1 / 2 * s * (a * xb) ->
      om * xa = om * x 0%nat * cos (INR j * th) + p0 * sin (INR j * th) ->
      pa = p0 * cos (INR j * th) - om * x 0%nat * sin (INR j * th) ->
      om * xb = om * x 0%nat * cos (INR (S j) * th) + p0 * sin (INR (S j) * th) /\
      pb = p0 * cos (INR (S j) * th) - om * x 0%nat * sin (INR (S j) * th)).
    { intros xa pa xb pb j H1 H2 H3 H4. rewrite S_INR.
      replace ((INR j + 1) * th) with (INR j * th + th) by ring. rewrite cos_plus, sin_plus.
      set (C := cos (INR j * th)) in *. set (S' := sin (INR j * th)) in *.
      assert (R1 : om * xb = om * xa * cos th + pa * sin th).
      { rewrite H1, Hc, Hs. field. }
      assert (R2 : pb = pa * cos th - om * xa * sin th).
      { rewrite H2, H1, Hc, Hs. replace (om * xa * (s * om)) with (om ^ 2 * (s * xa)) by ring.
        rewrite Ho. field. }
      rewrite R1, R2, H3, H4. split; ring. }
    assert (Hi : forall k, (k <= n)%nat ->
      om * x k = om * x 0%nat * cos (INR k * th) + p0 * sin (INR k * th) /\
      pf k = p0 * cos (INR k * th) - om * x 0%nat * sin (INR k * th)).
    { induction k as [|k IH]; intros Hle.
      - rewrite pf_0. cbn [INR]. rewrite Rmult_0_l, cos_0, sin_0. split; ring.
      - destruct IH as [I1 I2]; [lia|]. destruct (pf_next k) as [H1 H2]; [lia|].
        eapply Hstep; eassumption. }
    destruct (Hi n) as [I1 I2]; [lia|]. destruct pf_end as [H1 H2].
    replace (n + 1)%nat with (S n) in * by lia. eapply Hstep; eassumption.
  Qed.
End Orbit.

(** ** Finite numbers *)
Definition val (e : er) : R := match e with Fin r => r | _ => 0 end.
Definition fin (e : er) : Prop := e = Fin (val e).
Lemma fin_Fin r : fin (Fin r). Proof. reflexivity. Qed.
Lemma fin_list (v : list er) : (forall i, (i < length v)%nat -> fin (nth i v (Fin 0))) -> v = map Fin (map val v).
Proof.
  induction v as [|e v IH]; intros H; cbn; auto. f_equal.
  - exact (H 0%nat ltac:(cbn; lia)).
  - apply IH. intros i Hi. apply (H (S i)). cbn. lia.
Qed.
Lemma nth_val (v : list er) i : nth i (map val v) 0 = val (nth i v (Fin 0)).
Proof. exact (map_nth val v (Fin 0) i). Qed.
Lemma fin_map (r : list R) i : fin (nth i (map Fin r) (Fin 0)).
Proof. rewrite (map_nth Fin). reflexivity. Qed.

Lemma sumN_ext g1 g2 n : (forall i, (i < n)%nat -> g1 i = g2 i) -> sumN g1 n = sumN g2 n.
Proof. intros H. induction n as [|n IH]; cbn; auto. rewrite IH, H by auto; reflexivity || auto. Qed.
Lemma sumN_one g1 g2 k n : (k < n)%nat -> (forall i, (i < n)%nat -> i <> k -> g1 i = g2 i) ->
  sumN g1 n - sumN g2 n = g1 k - g2 k.
Proof.
  induction n as [|n IH]; intros Hk H; [lia|]. cbn. destruct (Nat.eq_dec k n) as [->|Hne].
  - rewrite (sumN_ext g1 g2 n) by (intros; apply H; lia). lra.
  - rewrite (H n) by lia. rewrite <- IH; [lra|lia|]. intros; apply H; lia.
Qed.
Lemma sumN_minus g1 g2 n : sumN g1 n - sumN g2 n = sumN (fun i => g1 i - g2 i) n.
Proof. induction n as [|n IH]; cbn; lra. Qed.
Lemma sumN_plus g1 g2 n : sumN g1 n + sumN g2 n = sumN (fun i => g1 i + g2 i) n.
Proof. induction n as [|n IH]; cbn; lra. Qed.
Lemma sumN_scal r g n : r * sumN g n = sumN (fun i => r * g i) n.
Proof. induction n as [|n IH]; cbn; lra. Qed.
Lemma sumN_snoc_list (l : list R) r g : (forall i, (i < length l)%nat -> True) ->
  sumN (fun i => g (nth i (l ++ [r]) 0)) (length (l ++ [r])) = sumN (fun i => g (nth i l 0)) (length l) + g r.
Proof.
  intros _. rewrite app_length. cbn. rewrite Nat.add_1_r. cbn. f_equal.
  - apply sumN_ext. intros i Hi. rewrite app_nth1 by auto. reflexivity.
  - rewrite app_nth2, Nat.sub_diag by lia. reflexivity.
Qed.

Lemma Kin_fin (p : list R) :
  Kin (map Fin p : list (@T EArith)) = Fin (1 / 2 * sumN (fun i => nth i p 0 ^ 2) (length p)).
Proof.
  assert (H : fold_left (fun a b : er => er_add a (er_mul b b)) (map Fin p) (Fin 0) =
              Fin (sumN (fun i => nth i p 0 ^ 2) (length p))).
  { induction p as [|r p IH] using rev_ind; [reflexivity|].
    rewrite map_app, fold_left_app, IH. cbn [map fold_left er_add er_mul].
    rewrite (sumN_snoc_list p r (fun v => v ^ 2)) by auto. f_equal. ring. }
  change (er_mul (@nlit EArith 5 (-1))
    (fold_left (fun a b : er => er_add a (er_mul b b)) (map Fin p) (Fin 0)) = 
    Fin (1 / 2 * sumN (fun i => nth i p 0 ^ 2) (length p))).
  rewrite H. cbn. f_equal. unfold Rlit. cbn. field.
Qed.

Lemma Decides_exp D u bb : 0 <= u < 1 -> Decides (N := ENum) (Fin D) (Fin u) bb -> (bb = true <-> u < exp D).
Proof.
  intros [H0 H1] HD. unfold Decides in HD. rewrite HD. clear HD. cbn.
  destruct (Rlt_dec 0 u) as [Hu|Hu].
  - cbn. rewrite !Rltb_true. assert (Hln : ln u < 0) by (rewrite <- ln_1; apply ln_increasing; lra).
    split.
    + intros [_ H]. destruct (Rlt_dec D 0) as [HD|HD].
      * specialize (H HD). rewrite <- (exp_ln u) by auto. apply exp_increasing. auto.
      * assert (1 <= exp D); [|lra]. rewrite <- exp_0. destruct (Req_dec D 0) as [->|Hne]; [lra|].
        left. apply exp_increasing. lra.
    + intros H. split; [auto|]. intros HD. rewrite <- (ln_exp D). apply ln_increasing; auto.
  - assert (u = 0) by lra. subst u. destruct (Req_EM_T 0 0) as [_|]; [|lra].
    split; [intros _; apply exp_pos|auto].
Qed.

Lemma In_evals {N : Num} {E : Env N} (x : vec) v t : In (x, v) (evals t) -> In (EEval x (inl v)) t.
Proof.
  induction t as [|e t IH]; cbn; auto. destruct e as [x' [v'|]| | | |]; auto.
  intros [H|H]; [injection H as -> ->|]; auto.
Qed.

Lemma Forall2_at {A B} (R : A -> B -> Prop) l1 l2 d1 d2 : Forall2 R l1 l2 ->
  forall k, (k < length l1)%nat -> R (nth k l1 d1) (nth k l2 d2).
Proof.
  induction 1 as [|x y l1 l2 Hxy H IH]; intros k Hk; cbn in Hk; [lia|].
  destruct k as [|k]; cbn; auto. apply IH. lia.
Qed.

Section Quad.
  Context {E : Env ENum}.
  Variables (a m : nat -> R) (c h : R).
  Hypothesis Hh : h <> 0.
  Hypothesis Hf : PureFin (quad a m c).

  Lemma pure_eval (x : list R) v : (exists w, fst (@e_fun _ E (map Fin x) w) = inl v) -> v = Fin (quad a m c x).
  Proof.
    intros [w Hw]. destruct (Hf x w) as [w' H]. rewrite H in Hw. cbn in Hw. congruence.
  Qed.

  Lemma quad_diff q k : (k < length q)%nat ->
    quad a m c (upd k (nth k q 0 + h) q) - quad a m c (upd k (nth k q 0 - h) q) =
    2 * h * (a k * (nth k q 0 - m k)).
  Proof.
    intros Hk. unfold quad. rewrite !upd_length.
    match goal with |- c + ?A - (c + ?B) = _ => replace (c + A - (c + B)) with (A - B) by ring end.
    rewrite (sumN_one _ _ k) by (auto; intros i Hi Hne; rewrite !upd_nth_other by auto; reflexivity).
    rewrite !upd_nth_same by auto. field.
  Qed.

  (** the gradient of the quadratic *)
  Lemma Central_quad (q : list R) (g : list er) V :
    Central (N := ENum) (Fin h) (map Fin q) g V ->
    (forall x v, In (x, v) V -> exists w, fst (@e_fun _ E x w) = inl v) ->
    g = map Fin (map (fun i => a i * (nth i q 0 - m i)) (seq 0 (length q))).
  Proof.
    intros [H1 H2 H3] HV. rewrite map_length in *.
    apply (list_ext (Fin 0)); [rewrite !map_length, seq_length; exact H1|].
    intros k Hk0. assert (Hk : (k < length q)%nat)
      by (eapply Nat.lt_le_trans; [exact Hk0|apply Nat.eq_le_incl; exact H1]).
    destruct (H3 k Hk) as (xp & fp & xm & fm & E1 & E2 & L1 & L2 & N1 & N2 & HB & HA & Hg).
    change (@n0 num_arith) with (Fin 0) in *. rewrite (map_nth Fin), nth_map_seq_R by auto.
    assert (L1' : @length er xp = length q) by exact L1.
    assert (L2' : @length er xm = length q) by exact L2.
    assert (HA' : forall j, (k < j < length q)%nat -> nth j xp (Fin 0) = nth j (map Fin q) (Fin 0) /\
      nth j xm (Fin 0) = nth j (map Fin q) (Fin 0))
      by exact HA.
    assert (Hxp : xp = map Fin (upd k (nth k q 0 + h) q)).
    { apply (list_ext (Fin 0)); [rewrite map_length, upd_length; exact L1'|].
      intros j Hj. rewrite L1' in Hj. rewrite (map_nth Fin).
      destruct (Nat.lt_trichotomy j k) as [Hl|[->|Hl]].
      - etransitivity; [exact (proj1 (HB j Hl))|]. rewrite (map_nth Fin), upd_nth_other by lia. cbn. f_equal. ring.
      - etransitivity; [exact N1|]. rewrite (map_nth Fin), upd_nth_same by auto. reflexivity.
      - etransitivity; [exact (proj1 (HA' j (conj Hl Hj)))|]. rewrite (map_nth Fin), upd_nth_other by lia. reflexivity. }
    assert (Hxm : xm = map Fin (upd k (nth k q 0 - h) q)).
    { apply (list_ext (Fin 0)); [rewrite map_length, upd_length; exact L2'|].
      intros j Hj. rewrite L2' in Hj. rewrite (map_nth Fin).
      destruct (Nat.lt_trichotomy j k) as [Hl|[->|Hl]].
      - etransitivity; [exact (proj2 (HB j Hl))|]. rewrite (map_nth Fin), upd_nth_other by lia. cbn. f_equal. ring.
      - etransitivity; [exact N2|]. rewrite (map_nth Fin), upd_nth_same by auto. reflexivity.
      - etransitivity; [exact (proj2 (HA' j (conj Hl Hj)))|]. rewrite (map_nth Fin), upd_nth_other by lia. reflexivity. }
    assert (Hfp : fp = Fin (quad a m c (upd k (nth k q 0 + h) q))).
    { apply pure_eval. apply HV. rewrite <- Hxp, <- E1. apply nth_In. lia. }
    assert (Hfm : fm = Fin (quad a m c (upd k (nth k q 0 - h) q))).
    { apply pure_eval. apply HV. rewrite <- Hxm, <- E2. apply nth_In. lia. }
    etransitivity; [exact Hg|]. rewrite Hfp, Hfm. unfold half. cbn. destruct (Req_EM_T h 0) as [|_]; [contradiction|].
    f_equal. rewrite quad_diff by auto. unfold Rlit. cbn. field. auto.
  Qed.

  (** ** A whole trajectory *)
  Section Path.
    Variables (d n : nat) (s : list R) (x p0 : list R) (Q P G : list (list (@T (@num_arith ENum))))
      (V : list (list (@T (@num_arith ENum)) * @T (@num_arith ENum))) (y p : list er).
    Hypothesis HF : Flight (N := ENum) d n (Fin h) (map Fin s) (map Fin x) (map Fin p0) Q P G V y p.
    Hypothesis HV : forall x v, In (x, v) V -> exists w, fst (@e_fun _ E x w) = inl v.
    Notation cq := (fun M k i => @crd ENum M k i).

    Lemma path_G k : (k < n + 2)%nat -> (forall i, (i < d)%nat -> fin (crd (N := ENum) Q k i)) ->
      forall i, (i < d)%nat -> crd (N := ENum) G k i = Fin (a i * (val (crd (N := ENum) Q k i) - m i)).
    Proof.
      intros Hk Hq i Hi. destruct (fl_grad _ _ _ _ _ _ _ _ _ _ _ _ HF) as (W & HW & HVW & Hg).
      destruct (fl_Q _ _ _ _ _ _ _ _ _ _ _ _ HF) as [HQ HQl].
      assert (Hlk : length (nth k Q []) = d).
      { apply (proj1 (Forall_nth _ _) HQl). lia. }
      assert (Hqk : @eq (list (@T (@num_arith ENum))) (nth k Q []) (map Fin (map val (nth k Q [])))).
      { apply fin_list. intros j Hj. apply Hq. rewrite <- Hlk. exact Hj. }
      pose proof (eq_ind _ (fun q => Central (N := ENum) (Fin h) q (nth k G []) (nth k W []))
                    (Hg k Hk) _ Hqk) as Hgk. cbv beta in Hgk. clear Hg.
      pose proof (Central_quad _ _ _ Hgk) as HG. rewrite HVW in HV.
      assert (HVk : forall x v, In (x, v) (nth k W []) -> exists w, fst (@e_fun _ E x w) = inl v).
      { intros x' v' Hin. apply HV. apply in_concat. exists (nth k W []). split; [|exact Hin].
        apply nth_In. lia. }
      specialize (HG HVk).
      etransitivity; [exact (f_equal (fun g : list er => nth i g (Fin 0)) HG)|].
      rewrite map_length, (map_nth Fin). f_equal.
      rewrite nth_map_seq_R by (rewrite <- Hlk in Hi; exact Hi).
      rewrite nth_val. reflexivity.
    Qed.

    Lemma path_fin k :
      ((k < n + 2)%nat -> forall i, (i < d)%nat -> fin (crd (N := ENum) Q k i)) /\
      ((k < n + 1)%nat -> forall i, (i < d)%nat -> fin (crd (N := ENum) P k i)).
    Proof.
      induction k as [|k [IH1 IH2]].
      - assert (H0 : forall i, (i < d)%nat -> fin (crd (N := ENum) Q 0 i)).
        { intros i Hi. unfold crd. rewrite (fl_start _ _ _ _ _ _ _ _ _ _ _ _ HF).
          change (@n0 (@num_arith ENum)) with (Fin 0). apply fin_map. }
        split; intros _; [exact H0|]. intros i Hi.
        rewrite (fl_kick0 _ _ _ _ _ _ _ _ _ _ _ _ HF i Hi), (path_G 0) by (auto; lia).
        change (@n0 (@num_arith ENum)) with (Fin 0). rewrite !(map_nth Fin). reflexivity.
      - assert (H0 : (S k < n + 2)%nat -> forall i, (i < d)%nat -> fin (crd (N := ENum) Q (S k) i)).
        { intros Hk i Hi. rewrite (fl_drift _ _ _ _ _ _ _ _ _ _ _ _ HF k i) by lia.
          rewrite (IH1 ltac:(lia) i Hi), (IH2 ltac:(lia) i Hi).
          change (@n0 (@num_arith ENum)) with (Fin 0). rewrite !(map_nth Fin). reflexivity. }
        split; [exact H0|]. intros Hk i Hi.
        rewrite (fl_kick _ _ _ _ _ _ _ _ _ _ _ _ HF k i) by lia.
        rewrite (path_G (S k)) by (auto; try lia; apply H0; lia). rewrite (IH2 ltac:(lia) i Hi).
        change (@n0 (@num_arith ENum)) with (Fin 0). rewrite !(map_nth Fin). reflexivity.
    Qed.

    (** the trajectory of coordinate i *)
    Lemma path_orbit i : (i < d)%nat ->
      let X k := val (crd (N := ENum) Q k i) - m i in let M k := val (crd (N := ENum) P k i) in
      X 0%nat = nth i x 0 - m i /\
      X (n + 1)%nat = nth i (map val y) 0 - m i /\
      M 0%nat = nth i p0 0 - 1 / 2 * nth i s 0 * (a i * X 0%nat) /\
      (forall k, (k < n + 1)%nat -> X (S k) = X k + nth i s 0 * M k) /\
      (forall k, (k < n)%nat -> M (S k) = M k - nth i s 0 * (a i * X (S k))) /\
      fin (nth i p (Fin 0)) /\
      nth i (map val p) 0 = M n - 1 / 2 * nth i s 0 * (a i * X (n + 1)%nat).
    Proof.
      intros Hi X M.
      assert (FQ : forall k, (k < n + 2)%nat -> forall i, (i < d)%nat -> fin (crd (N := ENum) Q k i))
        by (intros; apply path_fin; auto).
      assert (FP : forall k, (k < n + 1)%nat -> forall i, (i < d)%nat -> fin (crd (N := ENum) P k i))
        by (intros; apply path_fin; auto).
      assert (HX0 : X 0%nat = nth i x 0 - m i).
      { unfold X, crd. rewrite (fl_start _ _ _ _ _ _ _ _ _ _ _ _ HF).
        change (@n0 (@num_arith ENum)) with (Fin 0). rewrite (map_nth Fin). reflexivity. }
      split; [exact HX0|].
      split.
      { unfold X. rewrite nth_val, (fl_end _ _ _ _ _ _ _ _ _ _ _ _ HF). reflexivity. }
      split.
      { unfold M. rewrite (fl_kick0 _ _ _ _ _ _ _ _ _ _ _ _ HF i Hi).
        rewrite (path_G 0) by (auto; try lia; apply FQ; lia).
        change (@n0 (@num_arith ENum)) with (Fin 0). rewrite !(map_nth Fin). unfold half. cbn.
        unfold X, Rlit. cbn. field. }
      split.
      { intros k Hk. unfold X, M. rewrite (fl_drift _ _ _ _ _ _ _ _ _ _ _ _ HF k i) by lia.
        rewrite (FQ k ltac:(lia) i Hi), (FP k ltac:(lia) i Hi).
        change (@n0 (@num_arith ENum)) with (Fin 0). rewrite !(map_nth Fin). cbn. ring. }
      split.
      { intros k Hk. unfold X, M. rewrite (fl_kick _ _ _ _ _ _ _ _ _ _ _ _ HF k i) by lia.
        rewrite (path_G (S k)) by (auto; try lia; apply FQ; lia). rewrite (FP k ltac:(lia) i Hi).
        change (@n0 (@num_arith ENum)) with (Fin 0). rewrite !(map_nth Fin). cbn. ring. }
      pose proof (fl_kickn _ _ _ _ _ _ _ _ _ _ _ _ HF i Hi) as Hp.
      rewrite (path_G (n + 1)) in Hp by (auto; try lia; apply FQ; lia).
      rewrite (FP n ltac:(lia) i Hi) in Hp.
      change (@n0 (@num_arith ENum)) with (Fin 0) in Hp. rewrite !(map_nth Fin) in Hp.
      assert (Hp' : @eq er (nth i p (Fin 0)) (er_sub (Fin (val (crd (N := ENum) P n i)))
        (er_mul (er_mul (Fin (Rlit 5 (-1))) (Fin (nth i s 0)))
           (Fin (a i * (val (crd (N := ENum) Q (n + 1) i) - m i)))))) by exact Hp.
      split.
      - rewrite Hp'. reflexivity.
      - rewrite nth_val, Hp'. unfold half. cbn. unfold X, M, Rlit. cbn. field.
    Qed.

    Lemma path_y : y = map Fin (map val y) /\ length y = d.
    Proof.
      destruct (fl_Q _ _ _ _ _ _ _ _ _ _ _ _ HF) as [HQ HQl].
      assert (Hl : length (nth (n + 1) Q []) = d).
      { apply (proj1 (Forall_nth _ _) HQl). lia. }
      rewrite (fl_end _ _ _ _ _ _ _ _ _ _ _ _ HF). split; [|exact Hl].
      apply fin_list. intros i Hi. apply (proj1 (path_fin (n + 1)) ltac:(lia)).
      rewrite <- Hl. exact Hi.
    Qed.
    Lemma path_p : p = map Fin (map val p).
    Proof.
      apply fin_list. intros i Hi. apply (path_orbit i).
      rewrite <- (fl_plen _ _ _ _ _ _ _ _ _ _ _ _ HF). exact Hi.
    Qed.
  End Path.

  (** ** Specification of a step of the chain, on reals: d coordinates, n + 1 leap-frog steps of
      sizes [s]; [p0] the normal numbers drawn, [y] the proposal, [u] the uniform number drawn. *)
  Definition QuadStep (d n : nat) (s x x' : list R) (bb : bool) : Prop :=
    exists (p0 p y : list R) (u : R),
      length p0 = d /\ length p = d /\ length y = d /\
      Forall (fun z => israndn (Fin z)) p0 /\ isrand (Fin u) /\ 0 <= u < 1 /\
      (forall i, (i < d)%nat ->
        let si := nth i s 0 in let w2 := a i * (1 - si ^ 2 * a i / 4) in
        (* the quantity that the integrator conserves *)
        nth i p 0 ^ 2 + w2 * (nth i y 0 - m i) ^ 2 = nth i p0 0 ^ 2 + w2 * (nth i x 0 - m i) ^ 2 /\
        (* the end of the trajectory: a rotation by the angle (n + 1) th *)
        (forall th om, cos th = 1 - si ^ 2 * a i / 2 -> sin th = si * om -> om ^ 2 = w2 ->
           om * (nth i y 0 - m i) = om * (nth i x 0 - m i) * cos (INR (n + 1) * th)
                                    + nth i p0 0 * sin (INR (n + 1) * th))) /\
      x' = (if bb then y else x) /\
      (bb = true <->
       u < exp (sumN (fun i => (a i * nth i s 0) ^ 2 / 8 *
                               ((nth i x 0 - m i) ^ 2 - (nth i y 0 - m i) ^ 2)) d)).

  Hypothesis HE : EnvOK.
  Hypothesis Hn : forall r, exists z, fst (@e_randn _ E r) = Fin z.

  Lemma step_quad d n (s x : list R) x' f' bb V :
    length s = d -> length x = d ->
    (forall x v, In (x, v) V -> exists w, fst (@e_fun _ E x w) = inl v) ->
    HmStep (N := ENum) false d n (Fin h) (map Fin s) (map Fin x) (Fin (quad a m c x)) x' f' bb V ->
    exists xr, x' = map Fin xr /\ f' = Fin (quad a m c xr) /\ length xr = d /\ QuadStep d n s x xr bb.
  Proof.
    intros Hs Hx HV (p0' & Q & P & G & Vg & y & p & fy & Hp0 & Hnp & HF & Hx' & U0 & u0 & Hu & -> & HD).
    assert (HVg : forall x v, In (x, v) Vg -> exists w, fst (@e_fun _ E x w) = inl v).
    { intros x1 v Hin. apply HV. apply in_or_app. auto. }
    assert (HU0 : @eq er U0 (Fin (quad a m c x))).
    { apply pure_eval. apply HV. apply in_or_app. right. left. reflexivity. }
    assert (Hp0f : @eq (list er) p0' (map Fin (map val p0'))).
    { apply fin_list. intros i Hi. rewrite Forall_forall in Hnp.
      destruct (Hnp (nth i p0' (Fin 0)) (nth_In _ _ Hi)) as [r Hr]. destruct (Hn r) as [z Hz].
      assert (He : @eq er (nth i p0' (Fin 0)) (Fin z)) by (etransitivity; [exact Hr|exact Hz]).
      change (fin (nth i p0' (Fin 0))). unfold fin.
      exact (eq_ind_r (fun e : er => e = Fin (val e)) eq_refl He). }
    set (p0 := map val p0') in *.
    pose proof (eq_ind _ (fun q => Flight (N := ENum) d n (Fin h) (map Fin s) (map Fin x) q Q P G Vg y p)
                  HF _ Hp0f) as HF'. cbv beta in HF'.
    destruct (path_y d n s x p0 Q P G Vg y p HF' HVg) as [Hy Hyl].
    pose proof (path_p d n s x p0 Q P G Vg y p HF' HVg) as Hp.
    pose proof (fl_plen _ _ _ _ _ _ _ _ _ _ _ _ HF') as Hpl.
    set (yr := map val y) in *. set (pr := map val p) in *.
    assert (Lp0 : length p0 = d) by (unfold p0; rewrite map_length; exact Hp0).
    assert (Ly : length yr = d) by (unfold yr; rewrite map_length; exact Hyl).
    assert (Lp : length pr = d) by (unfold pr; rewrite map_length; exact Hpl).
    assert (Hfy : @eq er fy (Fin (quad a m c yr))).
    { apply pure_eval. rewrite <- Hy. apply HV. apply in_or_app. right. right. left. reflexivity. }
    destruct (rand_unit HE u0 Hu) as (u & Hu0 & Hur).
    assert (HO : forall i, (i < d)%nat ->
      let si := nth i s 0 in let w2 := a i * (1 - si ^ 2 * a i / 4) in
      nth i pr 0 ^ 2 + w2 * (nth i yr 0 - m i) ^ 2 = nth i p0 0 ^ 2 + w2 * (nth i x 0 - m i) ^ 2 /\
      (forall th om, cos th = 1 - si ^ 2 * a i / 2 -> sin th = si * om -> om ^ 2 = w2 ->
           om * (nth i yr 0 - m i) = om * (nth i x 0 - m i) * cos (INR (n + 1) * th)
                                    + nth i p0 0 * sin (INR (n + 1) * th))).
    { intros i Hi. destruct (path_orbit d n s x p0 Q P G Vg y p HF' HVg i Hi)
        as (O1 & O2 & O3 & O4 & O5 & _ & O6). cbv zeta.
      fold yr in O2. fold pr in O6. rewrite <- O1, <- O2. split.
      - apply (orbit_energy _ _ _ _ _ _ _ O3 O4 O5 O6).
      - intros th om Hc Hsn Hom.
        apply (orbit_closed _ _ _ _ _ _ _ O3 O4 O5 O6 th om Hc Hsn Hom). }
    assert (HDelta : nsub (nadd (nsub U0 fy) (Kin p0')) (Kin p) =
      Fin (sumN (fun i => (a i * nth i s 0) ^ 2 / 8 * ((nth i x 0 - m i) ^ 2 - (nth i yr 0 - m i) ^ 2)) d)).
    { assert (K0 : @eq er (Kin p0') (Fin (1 / 2 * sumN (fun i => nth i p0 0 ^ 2) d))).
      { rewrite <- Lp0. rewrite <- Kin_fin. rewrite <- Hp0f. reflexivity. }
      assert (K1 : @eq er (Kin p) (Fin (1 / 2 * sumN (fun i => nth i pr 0 ^ 2) d))).
      { rewrite <- Lp. rewrite <- Kin_fin. rewrite <- Hp. reflexivity. }
      change (er_sub (er_add (er_sub U0 fy) (Kin p0')) (Kin p) =
        Fin (sumN (fun i => (a i * nth i s 0) ^ 2 / 8 * ((nth i x 0 - m i) ^ 2 - (nth i yr 0 - m i) ^ 2)) d)).
      rewrite K0, K1, HU0, Hfy. cbn [er_add er_sub]. f_equal. unfold quad. rewrite Hx, Ly, !sumN_scal.
      match goal with |- c + ?A - (c + ?B) + ?C - ?D = _ =>
        replace (c + A - (c + B) + C - D) with ((A - B) + (C - D)) by ring end.
      rewrite !sumN_minus, sumN_plus. apply sumN_ext. intros i Hi. destruct (HO i Hi) as [Hen _].
      cbv zeta in Hen. cbv beta.
      replace (nth i pr 0 ^ 2) with
        (nth i p0 0 ^ 2 + a i * (1 - nth i s 0 ^ 2 * a i / 4) * (nth i x 0 - m i) ^ 2
         - a i * (1 - nth i s 0 ^ 2 * a i / 4) * (nth i yr 0 - m i) ^ 2) by lra. field. }
    assert (HD' : Decides (N := ENum) (Fin (sumN (fun i => (a i * nth i s 0) ^ 2 / 8 *
        ((nth i x 0 - m i) ^ 2 - (nth i yr 0 - m i) ^ 2)) d)) (Fin u) bb).
    { rewrite <- Hu0. rewrite <- HDelta. exact HD. }
    apply (Decides_exp _ _ _ Hur) in HD'.
    exists (if bb then yr else x).
    split; [destruct bb; injection Hx' as -> ->; [exact Hy|reflexivity]|].
    split; [destruct bb; injection Hx' as -> ->; [exact Hfy|reflexivity]|].
    split; [destruct bb; auto|].
    exists p0, pr, yr, u. do 3 (split; [assumption|]).
    split.
    { apply Forall_forall. intros z Hz. rewrite Forall_forall in Hnp. apply Hnp.
      change (@In er (Fin z) p0'). rewrite Hp0f. apply in_map. exact Hz. }
    split; [rewrite <- Hu0; exact Hu|]. split; [exact Hur|]. split; [exact HO|].
    split; [reflexivity|exact HD'].
  Qed.

  Lemma step_quad' d n (s x : list R) (se xe : list er) (fe : er) x' f' bb V :
    se = map Fin s -> xe = map Fin x -> fe = Fin (quad a m c x) ->
    length s = d -> length x = d ->
    (forall x v, In (x, v) V -> exists w, fst (@e_fun _ E x w) = inl v) ->
    HmStep (N := ENum) false d n (Fin h) se xe fe x' f' bb V ->
    exists xr, x' = map Fin xr /\ f' = Fin (quad a m c xr) /\ length xr = d /\ QuadStep d n s x xr bb.
  Proof. intros -> -> ->. apply step_quad. Qed.

  (** ** C71: the chain on a quadratic objective *)
  Theorem C71_quadratic A (box : list (R * R)) (st : nat -> R) w a0 res st' :
    hma_jac A = JacNone -> hma_fd A = Fin h -> s_constraints (hma A) <> Some "Reject"%string ->
    s_bounds (hma A) = @D2 EArith 2 (map (fun b => [Fin (fst b); Fin (snd b)]) box) ->
    (forall k, (k < length box)%nat -> user_step (hma A) k = Fin (st k)) ->
    (s_x0 (hma A) = None \/ exists v, s_x0 (hma A) = Some (@D1 EArith (map Fin v))) ->
    exec (hmc_sample A) w a0 = (inl res, st') ->
    exists (s : list R) (X : list (list R)) (acc : list bool),
      length s = length box /\
      (forall i, (i < length box)%nat ->
         nth i s 0 = st i * ((snd (nth i box (0, 0)) - fst (nth i box (0, 0))) / 2)) /\
      Z.of_nat (length X) = s_maxiter (hma A) /\ length X = S (length acc) /\
      sr_all res = (if s_return_all (hma A)
                    then Some (map (map Fin) X, map (fun x => Fin (quad a m c x)) X) else None) /\
      forall k, (k < length acc)%nat ->
        QuadStep (length box) (Z.to_nat (hma_nleap A)) s (nth k X []) (nth (S k) X []) (nth k acc false).
  Proof.
    intros Hj Hfd Hr Hb Hst Hx0 H.
    assert (Hgen : forall x v, In (x, v) (evals (tr st')) -> exists w, fst (@e_fun _ E x w) = inl v).
    { intros x v Hin. apply In_evals in Hin. destruct (disc_hmc A (mkSt w [] a0)) as (evs & He & _ & Hg).
      change (hmc_sample A (mkSt w [] a0)) with (exec (hmc_sample A) w a0) in He. rewrite H in He.
      cbn in He. subst evs. rewrite Forall_forall in Hg. exact (Hg _ Hin). }
    destruct (C71_equations A w a0 res st' Hj H)
      as (rows & steps & X & F & acc & V & Hrows & Hss & Hfs & Hl0 & HlX & HlF & HlV & Hmx & Hev & Hstep & Hall).
    assert (Hrej : rejects (hma A) = false).
    { unfold rejects. destruct (s_constraints (hma A)) as [cs|]; auto.
      destruct (String.eqb_spec cs "Reject"); [subst; congruence|reflexivity]. }
    rewrite Hrej, Hfd in Hstep. set (d := length box) in *.
    assert (Hd : length rows = d /\ forall k, (k < d)%nat ->
      nth k rows [] = [Fin (fst (nth k box (0, 0))); Fin (snd (nth k box (0, 0)))]).
    { rewrite Hb in Hrows. injection Hrows as <-. rewrite map_length. split; [reflexivity|].
      intros k Hk.
      etransitivity; [|exact (map_nth (fun b : R * R => [Fin (fst b); Fin (snd b)]) box (0, 0) k)].
      apply nth_indep. rewrite map_length. exact Hk. }
    destruct Hd as [Hd Hrow]. rewrite Hd in *.
    destruct Hss as [Hls Hss].
    set (s := map (fun i => st i * ((snd (nth i box (0, 0)) - fst (nth i box (0, 0))) / 2)) (seq 0 d)).
    assert (Hs : @eq (list er) steps (map Fin s)).
    { apply (list_ext (Fin 0)).
      - unfold s. rewrite !map_length, seq_length. etransitivity; [exact Hls|exact Hd].
      - intros k Hk0. assert (Hk : (k < d)%nat).
        { eapply Nat.lt_le_trans; [exact Hk0|]. apply Nat.eq_le_incl. etransitivity; [exact Hls|exact Hd]. }
        rewrite (map_nth Fin). unfold s. rewrite nth_map_seq_R by exact Hk.
        rewrite Hd in Hss. etransitivity; [exact (Hss k Hk)|]. rewrite (Hst k Hk).
        assert (Hup : @eq er (nth k (ups rows) (Fin 0)) (Fin (snd (nth k box (0, 0))))).
        { etransitivity; [exact (map_nth (fun r : list er => nth 1 r (Fin 0)) rows [] k)|].
          exact (f_equal (fun r : list er => nth 1 r (Fin 0)) (Hrow k Hk)). }
        assert (Hlo : @eq er (nth k (lows rows) (Fin 0)) (Fin (fst (nth k box (0, 0))))).
        { etransitivity; [exact (map_nth (fun r : list er => nth 0 r (Fin 0)) rows [] k)|].
          exact (f_equal (fun r : list er => nth 0 r (Fin 0)) (Hrow k Hk)). }
        change (er_mul (Fin (st k)) (er_mul (Fin (Rlit 5 (-1)))
          (er_sub (nth k (ups rows) (Fin 0)) (nth k (lows rows) (Fin 0)))) =
          Fin (st k * ((snd (nth k box (0, 0)) - fst (nth k box (0, 0))) / 2))).
        rewrite Hup, Hlo. cbn. f_equal. unfold Rlit. cbn. field. }
    assert (Hls' : length s = d) by (unfold s; rewrite map_length, seq_length; reflexivity).
    (* the first sample *)
    assert (Hx1 : @eq (list er) (nth 0 X []) (map Fin (map val (nth 0 X [])))).
    { unfold first_sample in Hfs. destruct Hx0 as [Hx0|[v Hx0]]; rewrite Hx0 in Hfs.
      - apply fin_list. intros k Hk0.
        assert (Hk : (k < d)%nat) by (eapply Nat.lt_le_trans; [exact Hk0|apply Nat.eq_le_incl; exact Hl0]).
        destruct (Forall2_at _ _ _ [] (Fin 0) Hfs k (eq_ind_r (fun z => (k < z)%nat) Hk Hd)) as (u & Hu & Hv).
        destruct (rand_unit HE u Hu) as (r & Hur & _).
        assert (He : @eq er (nth k (nth 0 X []) (Fin 0))
          (Fin (fst (nth k box (0, 0)) + (snd (nth k box (0, 0)) - fst (nth k box (0, 0))) * r))).
        { etransitivity; [exact Hv|].
          etransitivity; [exact (f_equal (fun r : list er => er_add (nth 0 r (Fin 0))
            (er_mul (er_sub (nth 1 r (Fin 0)) (nth 0 r (Fin 0))) u)) (Hrow k Hk))|].
          rewrite Hur. reflexivity. }
        exact (eq_ind_r (fun e : er => e = Fin (val e)) eq_refl He).
      - rewrite Hfs. rewrite !map_map. cbn. reflexivity. }
    assert (Hf1 : @eq er (nth 0 F (Fin 0)) (Fin (quad a m c (map val (nth 0 X []))))).
    { apply pure_eval. rewrite <- Hx1. apply Hgen. rewrite Hev. left. reflexivity. }
    (* all samples *)
    assert (HallX : forall k, (k <= length acc)%nat ->
      @eq (list er) (nth k X []) (map Fin (map val (nth k X []))) /\
      length (nth k X []) = d /\ @eq er (nth k F (Fin 0)) (Fin (quad a m c (map val (nth k X [])))) /\
      ((k < length acc)%nat ->
         QuadStep d (Z.to_nat (hma_nleap A)) s (map val (nth k X [])) (map val (nth (S k) X []))
                  (nth k acc false))).
    { assert (HVin : forall k, (k < length acc)%nat ->
        forall x v, In (x, v) (nth k V []) -> exists w, fst (@e_fun _ E x w) = inl v).
      { intros k Hk x v Hin. apply Hgen. rewrite Hev. right. apply in_concat.
        exists (nth k V []). split; [apply nth_In; lia|exact Hin]. }
      assert (Hnext : forall k, (k < length acc)%nat ->
        @eq (list er) (nth k X []) (map Fin (map val (nth k X []))) ->
        length (nth k X []) = d -> @eq er (nth k F (Fin 0)) (Fin (quad a m c (map val (nth k X [])))) ->
        exists xr, @eq (list er) (nth (S k) X []) (map Fin xr) /\
          @eq er (nth (S k) F (Fin 0)) (Fin (quad a m c xr)) /\ length xr = d /\
          QuadStep d (Z.to_nat (hma_nleap A)) s (map val (nth k X [])) xr (nth k acc false)).
      { intros k Hk E1 E2 E3.
        apply (step_quad' d _ s _ steps (nth k X []) (nth k F (Fin 0)) _ _ _ (nth k V []) Hs E1 E3 Hls').
        - rewrite map_length. exact E2.
        - exact (HVin k Hk).
        - exact (Hstep k Hk). }
      assert (Hval : forall xr, map val (map Fin xr) = xr).
      { intros xr. rewrite map_map. cbn. apply map_id. }
      induction k as [|k IH]; intros Hk.
      - split; [exact Hx1|]. split; [exact Hl0|]. split; [exact Hf1|]. intros Hk'.
        destruct (Hnext 0%nat Hk' Hx1 Hl0 Hf1) as (xr & N1 & N2 & N3 & N4).
        replace (map val (nth 1 X [])) with xr; [exact N4|].
        symmetry. etransitivity; [exact (f_equal (map val) N1)|apply Hval].
      - destruct IH as (I1 & I2 & I3 & _); [lia|].
        destruct (Hnext k ltac:(lia) I1 I2 I3) as (xr & N1 & N2 & N3 & _).
        assert (Hxr : map val (nth (S k) X []) = xr).
        { etransitivity; [exact (f_equal (map val) N1)|apply Hval]. }
        assert (J1 : @eq (list er) (nth (S k) X []) (map Fin (map val (nth (S k) X [])))).
        { rewrite Hxr. exact N1. }
        assert (J2 : length (nth (S k) X []) = d).
        { etransitivity; [exact (f_equal (@length er) N1)|]. rewrite map_length. exact N3. }
        assert (J3 : @eq er (nth (S k) F (Fin 0)) (Fin (quad a m c (map val (nth (S k) X []))))).
        { rewrite Hxr. exact N2. }
        split; [exact J1|]. split; [exact J2|]. split; [exact J3|]. intros Hk'.
        destruct (Hnext (S k) Hk' J1 J2 J3) as (xr' & M1 & M2 & M3 & M4).
        replace (map val (nth (S (S k)) X [])) with xr'; [exact M4|].
        symmetry. etransitivity; [exact (f_equal (map val) M1)|apply Hval]. }
    exists s, (map (map val) X), acc. split; [exact Hls'|].
    split; [intros i Hi; unfold s; rewrite nth_map_seq_R by exact Hi; reflexivity|].
    rewrite map_length. split; [symmetry; exact Hmx|]. split; [exact HlX|].
    assert (Hnm : forall k, nth k (map (map val) X) [] = map val (nth k X [])).
    { intros k. exact (map_nth (map val) X [] k). }
    split.
    - rewrite Hall. destruct (s_return_all (hma A)); [|reflexivity]. f_equal. f_equal.
      + apply (list_ext []); [rewrite !map_length; reflexivity|]. intros k Hk.
        etransitivity; [exact (proj1 (HallX k ltac:(lia)))|]. rewrite <- Hnm.
        symmetry. exact (map_nth (map Fin) (map (map val) X) [] k).
      + apply (list_ext (Fin 0)); [rewrite !map_length; etransitivity; [exact HlF|symmetry; exact HlX]|].
        intros k Hk0. assert (Hk : (k < S (length acc))%nat)
          by (eapply Nat.lt_le_trans; [exact Hk0|apply Nat.eq_le_incl; exact HlF]).
        etransitivity; [exact (proj1 (proj2 (proj2 (HallX k ltac:(lia)))))|].
        rewrite <- Hnm. symmetry.
        etransitivity; [|exact (map_nth (fun x => Fin (quad a m c x)) (map (map val) X) [] k)].
        apply nth_indep. rewrite !map_length. exact (eq_ind_r (fun z => (k < z)%nat) Hk HlX).
    - intros k Hk. rewrite !Hnm. apply HallX; lia.
  Qed.
End Quad.

(** Consequences for one step: a proposal that is no farther from the centre in the norm weighted by
    (curvature x step)^2 is accepted; with small enough steps no coordinate can leave the ellipse
    given by its first position and momentum. *)
Theorem C71_inward {E : Env ENum} a m d n s x x' bb :
  QuadStep a m d n s x x' bb ->
  exists y : list R, length y = d /\ x' = (if bb then y else x) /\
    (sumN (fun i => (a i * nth i s 0) ^ 2 * (nth i y 0 - m i) ^ 2) d <=
     sumN (fun i => (a i * nth i s 0) ^ 2 * (nth i x 0 - m i) ^ 2) d -> bb = true).
Proof.
  intros (p0 & p & y & u & _ & _ & Hy & _ & _ & Hu & _ & Hx' & Hb). exists y.
  split; [exact Hy|]. split; [exact Hx'|]. intros Hle. apply Hb.
  match goal with |- u < exp ?D => assert (HD : 0 <= D) end.
  { rewrite (sumN_ext _ (fun i => / 8 * ((a i * nth i s 0) ^ 2 * (nth i x 0 - m i) ^ 2
      - (a i * nth i s 0) ^ 2 * (nth i y 0 - m i) ^ 2))) by (intros; field).
    rewrite <- sumN_scal, <- sumN_minus. lra. }
  match goal with |- u < exp ?D => assert (HE : 1 <= exp D) end; [|lra].
  rewrite <- exp_0. destruct HD as [HD|<-]; [left; apply exp_increasing; exact HD|lra].
Qed.

Theorem C71_bounded {E : Env ENum} a m d n s x x' bb i :
  QuadStep a m d n s x x' bb -> (i < d)%nat -> 0 < a i -> nth i s 0 ^ 2 * a i < 4 ->
  exists p0, israndn (Fin p0) /\
    (nth i x' 0 - m i) ^ 2 <= (nth i x 0 - m i) ^ 2 + p0 ^ 2 / (a i * (1 - nth i s 0 ^ 2 * a i / 4)).
Proof.
  intros (p0 & p & y & u & Hp0 & _ & Hy & Hr & _ & _ & HO & Hx' & _) Hi Ha Hs.
  exists (nth i p0 0). split.
  { rewrite Forall_forall in Hr. apply Hr. apply nth_In. lia. }
  destruct (HO i Hi) as [He _]. cbv zeta in He.
  set (w2 := a i * (1 - nth i s 0 ^ 2 * a i / 4)) in *.
  assert (Hw : 0 < w2) by (unfold w2; apply Rmult_lt_0_compat; lra).
  pose proof (pow2_ge_0 (nth i p0 0)) as P0. pose proof (pow2_ge_0 (nth i p 0)) as P1.
  assert (Hq : 0 <= nth i p0 0 ^ 2 / w2).
  { apply Rmult_le_pos; [exact P0|]. left. apply Rinv_0_lt_compat. exact Hw. }
  destruct bb; rewrite Hx'; [|lra].
  assert (Hm : w2 * (nth i y 0 - m i) ^ 2 <= w2 * ((nth i x 0 - m i) ^ 2 + nth i p0 0 ^ 2 / w2)).
  { replace (w2 * ((nth i x 0 - m i) ^ 2 + nth i p0 0 ^ 2 / w2))
      with (nth i p0 0 ^ 2 + w2 * (nth i x 0 - m i) ^ 2) by (field; lra). lra. }
  apply Rmult_le_reg_l in Hm; auto.
Qed.
