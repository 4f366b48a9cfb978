(** C11: PSO and CPSO with constraints = "Shrink" stay in the box (exact arithmetic). *)
From Coq Require Import Reals Lra Permutation.
From Verif Require Import Base Num NumR NumE Env Common DE CPSO Hoare EvalRules Gen Steps Runs Inst Laws Safe Feas.
Open Scope R_scope.

(** A finite coordinate between finite bounds. *)
Definition Cin (b : er * er) (v : er) : Prop :=
  match b, v with (Fin l, Fin u), Fin r => l <= r <= u | _, _ => False end.
Definition isfin (v : er) : Prop := match v with Fin _ => True | _ => False end.

Lemma fin_add x y : isfin x -> isfin y -> isfin (er_add x y).
Proof. destruct x, y; cbn; tauto. Qed.
Lemma fin_sub x y : isfin x -> isfin y -> isfin (er_sub x y).
Proof. destruct x, y; cbn; tauto. Qed.
Lemma fin_mul x y : isfin x -> isfin y -> isfin (er_mul x y).
Proof. destruct x, y; cbn; tauto. Qed.

(** Bounds are pairs of finite numbers, in order. *)
Definition FiniteBox (rows : @matrix EArith) : Prop :=
  Forall (fun r => exists l u, r = [Fin l; Fin u] /\ l <= u) rows.

Lemma Cin_inb b v : Cin b v -> @inb EArith b v.
Proof.
  destruct b as [[l| | |] [u| | |]], v as [r| | |]; cbn; try tauto. intros [H1 H2].
  split; cbn; rb; lra.
Qed.

Lemma FiniteBox_uniform rows : FiniteBox rows -> @UniformBox ENum rows.
Proof.
  intros H. eapply Forall_impl; [|exact H]. intros r (l & u & -> & Hlu). cbn.
  apply ENum_UniformLaw, Hlu.
Qed.

(** ** The Latin Hypercube *)
Lemma Rlit_0 m : Rlit m 0 = IZR m.
Proof. reflexivity. Qed.
Lemma half_lit : Rlit 5 (-1) = / 2.
Proof. unfold Rlit. cbn. lra. Qed.

(** In exact arithmetic the individual of stratum [k] gets the point
    lo + (hi - lo) * (k + v / 2) / p: the lower half of its stratum. *)
Lemma lhs_point_exact p k v lo hi : (0 < p)%nat ->
  @lhs_point ENum p k (Fin v) (Fin lo) (Fin hi) =
  Fin (lo + (hi - lo) * ((INR k + v / 2) / INR p)).
Proof.
  intros Hp. unfold lhs_point, lin, nN, nZ. cbn [num_arith ENum EArith nadd nmul ndiv nsub nlit].
  rewrite !Rlit_0, half_lit, <- !INR_IZR_INZ.
  assert (Hi : INR p <> 0) by (apply not_0_INR; lia).
  cbn [er_div]. destruct (Req_EM_T (INR p) 0); [tauto|]. cbn [er_mul er_add er_sub]. f_equal. field. exact Hi.
Qed.

Lemma stratum_unit p k v : (k < p)%nat -> 0 <= v < 1 -> 0 <= (INR k + v / 2) / INR p <= 1.
Proof.
  intros Hk Hv. assert (Hp : 0 < INR p) by (apply lt_0_INR; lia).
  assert (HK : INR k + 1 <= INR p) by (rewrite <- S_INR; apply le_INR; lia).
  pose proof (pos_INR k). split.
  - apply Rmult_le_pos; [lra|]. apply Rlt_le, Rinv_0_lt_compat, Hp.
  - apply Rmult_le_reg_r with (INR p); [exact Hp|]. unfold Rdiv. rewrite Rmult_assoc, Rinv_l by lra. lra.
Qed.

Lemma unit_draw (v : er) : @nleb EArith (@n0 EArith) v = true -> @nltb EArith v (@n1 EArith) = true ->
  exists r, v = Fin r /\ 0 <= r < 1.
Proof.
  destruct v as [r| | |]; cbn; try discriminate. unfold Rlit. intros; rb. exists r. split; [reflexivity|]. cbn in *. lra.
Qed.

Lemma ENum_LhsLaw p lo hi : (0 < p)%nat -> lo <= hi -> @LhsLaw ENum Cin p (Fin lo, Fin hi).
Proof.
  intros Hp Hlh v k H0 H1 Hk. destruct (unit_draw v H0 H1) as (r & -> & Hr). cbn [fst snd].
  rewrite lhs_point_exact by exact Hp. pose proof (stratum_unit p k r Hk Hr). cbn. nra.
Qed.

(** ** Shrink *)
Lemma vmin_fin (l : list er) : l <> [] -> Forall isfin l ->
  exists m, @vmin ENum l = Fin m /\ In (Fin m) l /\ forall r, In (Fin r) l -> m <= r.
Proof.
  destruct l as [|a l]; [congruence|]. intros _ H. unfold vmin.
  inversion H as [|x y Ha Hl]; subst. destruct a as [a| | |]; try (cbn in Ha; tauto). clear Ha H.
  revert a. induction l as [|b l IH]; intros a; cbn [fold_left].
  - exists a. split; [reflexivity|]. split; [left; reflexivity|]. intros r [Hr|[]]; injection Hr as ->; lra.
  - inversion Hl as [|x y Hb Hl']; subst. destruct b as [b| | |]; try (cbn in Hb; tauto).
    assert (E : exists c, @np_min2 ENum (Fin a) (Fin b) = Fin c /\ (c = a \/ c = b) /\ c <= a /\ c <= b).
    { unfold np_min2, nisnan. cbn. destruct (Reqb a a) eqn:Ea.
      - cbn. destruct (Rleb a b) eqn:Eb; rb.
        + exists a. repeat split; auto; lra.
        + exists b. repeat split; auto; lra.
      - exfalso. assert (Reqb a a = true) by (apply Reqb_true; reflexivity). congruence. }
    destruct E as (c & -> & Hc & Hca & Hcb). destruct (IH Hl' c) as (m & -> & Hin & Hm).
    exists m. split; [reflexivity|]. split.
    + destruct Hin as [Hin|Hin]; [|right; right; exact Hin]. injection Hin as ->.
      destruct Hc as [->| ->]; [left|right; left]; reflexivity.
    + assert (m <= c) by (apply Hm; left; reflexivity).
      intros r [Hr|[Hr|Hr]]; [injection Hr as <-; lra|injection Hr as <-; lra|apply Hm; right; exact Hr].
Qed.

Section ShrinkSec.
  Definition lo_side (X V lower : list er) := @shrink_side ENum (fun c b => er_ltb c b) X V lower.
  Definition up_side (X V upper : list er) := @shrink_side ENum (fun c b => er_ltb b c) X V upper.

  Lemma lo_side_ok lower upper X V : Forall2 Cin (combine lower upper) X -> length lower = length upper -> Forall isfin V ->
    Forall (fun r => exists q, r = Fin q /\ 0 <= q <= 1) (lo_side X V lower).
  Proof.
    revert upper X V. induction lower as [|l lower IH]; intros upper X V HX Hl HV.
    - unfold lo_side, shrink_side. destruct X, V; constructor.
    - destruct upper as [|u upper]; [discriminate|]. cbn in HX. inversion HX as [|b v bs X' Hb HX']; subst.
      destruct V as [|w V]; [constructor|]. inversion HV as [|? ? Hw HV']; subst.
      unfold lo_side, shrink_side. cbn [map3 concat]. apply Forall_app. split; [|apply (IH upper); auto].
      destruct l as [l| | |], u as [u| | |], v as [x| | |], w as [w| | |]; cbn in Hb, Hw; try tauto.
      cbn. destruct (Rltb (x + w) l) eqn:Hc; [|constructor]. rb.
      destruct (Req_EM_T w 0); [lra|]. constructor; [|constructor]. eexists. split; [reflexivity|].
      assert (Hw0 : w < 0) by lra. split.
      + replace ((l - x) / w) with ((x - l) * / (- w)) by (field; lra).
        apply Rmult_le_pos; [lra|]. apply Rlt_le, Rinv_0_lt_compat; lra.
      + replace ((l - x) / w) with ((x - l) * / (- w)) by (field; lra).
        apply Rmult_le_reg_r with (- w); [lra|]. rewrite Rmult_assoc, Rinv_l by lra. lra.
  Qed.

  Lemma up_side_ok lower upper X V : Forall2 Cin (combine lower upper) X -> length lower = length upper -> Forall isfin V ->
    Forall (fun r => exists q, r = Fin q /\ 0 <= q <= 1) (up_side X V upper).
  Proof.
    revert upper X V. induction lower as [|l lower IH]; intros upper X V HX Hl HV.
    - destruct upper; [|discriminate]. unfold up_side, shrink_side. destruct X, V; constructor.
    - destruct upper as [|u upper]; [discriminate|]. cbn in HX. inversion HX as [|b v bs X' Hb HX']; subst.
      destruct V as [|w V]; [constructor|]. inversion HV as [|? ? Hw HV']; subst.
      unfold up_side, shrink_side. cbn [map3 concat]. apply Forall_app. split; [|apply (IH upper); auto].
      destruct l as [l| | |], u as [u| | |], v as [x| | |], w as [w| | |]; cbn in Hb, Hw; try tauto.
      cbn. destruct (Rltb u (x + w)) eqn:Hc; [|constructor]. rb.
      destruct (Req_EM_T w 0); [lra|]. constructor; [|constructor]. eexists. split; [reflexivity|].
      assert (Hw0 : 0 < w) by lra. split.
      + apply Rmult_le_pos; [lra|]. apply Rlt_le, Rinv_0_lt_compat; lra.
      + apply Rmult_le_reg_r with w; [lra|]. unfold Rdiv. rewrite Rmult_assoc, Rinv_l by lra. lra.
  Qed.

  (** The factor is in [0, 1] and at most every candidate factor. *)
  Lemma shrink_ok lower upper X V : Forall2 Cin (combine lower upper) X -> length lower = length upper -> Forall isfin V ->
    exists b, @shrink ENum lower upper X V = Fin b /\ 0 <= b <= 1 /\
      (forall r, In (Fin r) (lo_side X V lower) -> b <= r) /\
      (forall r, In (Fin r) (up_side X V upper) -> b <= r).
  Proof.
    intros HX Hl HV. pose proof (lo_side_ok _ _ _ _ HX Hl HV) as H1. pose proof (up_side_ok _ _ _ _ HX Hl HV) as H2.
    unfold shrink.
    change (@shrink_side ENum (fun c b : @T (@num_arith ENum) => @nltb (@num_arith ENum) c b) X V lower) with (lo_side X V lower).
    change (@shrink_side ENum (fun c b : @T (@num_arith ENum) => @nltb (@num_arith ENum) b c) X V upper) with (up_side X V upper).
    set (bl := lo_side X V lower) in *. set (bu := up_side X V upper) in *. clearbody bl bu.
    assert (F : forall l, Forall (fun r => exists q, r = Fin q /\ 0 <= q <= 1) l -> l <> [] ->
       exists m, @vmin ENum l = Fin m /\ 0 <= m <= 1 /\ forall r, In (Fin r) l -> m <= r).
    { intros l Hfl Hne. destruct (vmin_fin l Hne) as (m & E1 & E2 & E3).
      - eapply Forall_impl; [|exact Hfl]. intros a (q & -> & _). exact I.
      - exists m. split; [exact E1|]. split; [|exact E3]. rewrite Forall_forall in Hfl.
        destruct (Hfl _ E2) as (q & Hq & Hq1). injection Hq as ->. exact Hq1. }
    destruct bl as [|a bl], bu as [|c bu].
    - exists 1. split; [reflexivity|]. split; [lra|]. split; intros r [].
    - destruct (F _ H2 ltac:(discriminate)) as (m & Em & Hm & Hr). exists m. split; [exact Em|]. split; [exact Hm|].
      split; [intros r []|exact Hr].
    - destruct (F _ H1 ltac:(discriminate)) as (m & Em & Hm & Hr). exists m. split; [exact Em|]. split; [exact Hm|].
      split; [exact Hr|intros r []].
    - destruct (F _ H1 ltac:(discriminate)) as (m1 & Em1 & Hm1 & Hr1).
      destruct (F _ H2 ltac:(discriminate)) as (m2 & Em2 & Hm2 & Hr2).
      rewrite Em1, Em2. unfold pymin. cbn. destruct (Rltb m2 m1) eqn:Hc; rb.
      + exists m2. split; [reflexivity|]. split; [exact Hm2|]. split; [|exact Hr2].
        intros r Hr. apply Hr1 in Hr. lra.
      + exists m1. split; [reflexivity|]. split; [exact Hm1|]. split; [exact Hr1|].
        intros r Hr. apply Hr2 in Hr. lra.
  Qed.

  Lemma shrunk_in b lower upper X V : 0 <= b <= 1 ->
    Forall2 Cin (combine lower upper) X -> length lower = length upper -> Forall isfin V -> length V = length X ->
    (forall r, In (Fin r) (lo_side X V lower) -> b <= r) ->
    (forall r, In (Fin r) (up_side X V upper) -> b <= r) ->
    Forall2 Cin (combine lower upper) (@vadd EArith X (map (fun v => er_mul v (Fin b)) V)).
  Proof.
    intros Hb. revert upper X V. induction lower as [|l lower IH]; intros upper X V HX Hl HV HVl HL HU.
    - destruct upper; [|discriminate]. cbn in HX. inversion HX; subst. constructor.
    - destruct upper as [|u upper]; [discriminate|]. cbn in HX. inversion HX as [|bb v bs X' Hbb HX']; subst.
      destruct V as [|w V]; [discriminate|]. inversion HV as [|? ? Hw HV']; subst.
      cbn [combine map]. unfold vadd. cbn [map2]. constructor.
      + destruct l as [l| | |], u as [u| | |], v as [x| | |], w as [w| | |]; cbn in Hbb, Hw; try tauto.
        unfold lo_side, up_side, shrink_side in HL, HU. cbn in HL, HU. cbn.
        destruct (Rltb (x + w) l) eqn:H1; rb.
        { destruct (Req_EM_T w 0); [lra|]. specialize (HL _ (or_introl eq_refl)).
          assert (w < 0) by lra. assert (Hm : w * ((l - x) / w) <= w * b) by nra.
          replace (w * ((l - x) / w)) with (l - x) in Hm by (field; lra). nra. }
        destruct (Rltb u (x + w)) eqn:H2; rb.
        { destruct (Req_EM_T w 0); [lra|]. specialize (HU _ (or_introl eq_refl)).
          assert (0 < w) by lra. assert (Hm : w * b <= w * ((u - x) / w)) by nra.
          replace (w * ((u - x) / w)) with (u - x) in Hm by (field; lra). nra. }
        nra.
      + apply IH; auto.
        * intros r Hr. apply HL. unfold lo_side, shrink_side. cbn [map3 concat]. apply in_or_app. right; exact Hr.
        * intros r Hr. apply HU. unfold up_side, shrink_side. cbn [map3 concat]. apply in_or_app. right; exact Hr.
  Qed.

  (** One constrained move. *)
  Lemma pso_cons_ok lower upper X V : length lower = length upper ->
    Forall2 Cin (combine lower upper) X -> Forall isfin V -> length V = length X ->
    Forall2 Cin (combine lower upper) (fst (@pso_cons ENum PSOShrink lower upper X V)) /\
    Forall isfin (snd (@pso_cons ENum PSOShrink lower upper X V)) /\
    length (snd (@pso_cons ENum PSOShrink lower upper X V)) = length X.
  Proof.
    intros Hl HX HV HVl. cbn [pso_cons].
    destruct (shrink_ok _ _ _ _ HX Hl HV) as (b & -> & Hb & H1 & H2). cbn [fst snd].
    split; [|split].
    - apply shrunk_in; auto.
    - apply Forall_forall. intros v Hv. apply in_map_iff in Hv. destruct Hv as (w & <- & Hw).
      rewrite Forall_forall in HV. specialize (HV _ Hw). destruct w; cbn in *; tauto.
    - rewrite map_length. exact HVl.
  Qed.
End ShrinkSec.

Ltac elia := unfold matrix, vec in *; change (@T (@num_arith ENum)) with er in *;
  change (@T EArith) with er in *; lia.

Section RunPso.
  Context {E : Env ENum}.
  Context (HE : EnvOK).
  Notation evec := (@vec (@num_arith ENum)).

  (** The parameters of a constrained swarm. *)
  Record PSOOk (P : PSOParams) : Prop := {
    po_con : ps_con P = PSOShrink;
    po_w : isfin (ps_w P); po_c1 : isfin (ps_c1 P); po_c2 : isfin (ps_c2 P);
    po_lo : length (ps_lower P) = ps_d P; po_up : length (ps_upper P) = ps_d P;
    po_box : Forall (fun b => exists l u, b = (Fin l, Fin u) /\ l <= u) (combine (ps_lower P) (ps_upper P)) }.

  Definition PBox (P : PSOParams) : evec -> Prop := Forall2 Cin (combine (ps_lower P) (ps_upper P)).
  Definition VFin (d : nat) (v : evec) : Prop := Forall isfin v /\ length v = d.

  Record PSOInv (P : PSOParams) (s : PSOS) : Prop := {
    pi_X : Forall (PBox P) (pss_X s); pi_Xl : length (pss_X s) = ps_p P;
    pi_V : Forall (VFin (ps_d P)) (pss_V s); pi_Vl : length (pss_V s) = ps_p P;
    pi_b : Forall (PBox P) (pss_pbest s); pi_bl : length (pss_pbest s) = ps_p P;
    pi_fl : length (pss_pbestfit s) = ps_p P;
    pi_g : PBox P (pss_gbest s) }.

  Section Step.
    Context (P : PSOParams) (HP : PSOOk P) (HM : ModeKeeps (PBox P) (ps_mode P)).
    Context (Pc : matrix -> CbState -> Prop).

    Lemma PBox_len x : PBox P x -> length x = ps_d P.
    Proof.
      intros H. apply Forall2_length in H. rewrite combine_length, (po_lo _ HP), (po_up _ HP) in H. elia.
    Qed.
    Lemma PBox_fin x : PBox P x -> VFin (ps_d P) x.
    Proof.
      intros H. split; [|apply PBox_len, H]. unfold PBox in H. induction H as [|b v bs x Hb]; constructor; auto.
      destruct b as [[] []], v; cbn in *; tauto.
    Qed.

    Definition Unit (d : nat) (r : evec) : Prop :=
      length r = d /\ Forall (fun u => @nleb EArith n0 u = true /\ @nltb EArith u n1 = true) r.
    Lemma Unit_fin d r : Unit d r -> VFin d r.
    Proof.
      intros [H1 H2]. split; [|exact H1]. eapply Forall_impl; [|exact H2]. intros u [Hu1 Hu2].
      destruct (unit_draw u Hu1 Hu2) as (q & -> & _). exact I.
    Qed.

    Lemma velocity_fin X V pb gb r1 r2 : VFin (ps_d P) X -> VFin (ps_d P) V -> VFin (ps_d P) pb ->
      VFin (ps_d P) gb -> VFin (ps_d P) r1 -> VFin (ps_d P) r2 ->
      VFin (ps_d P) (velocity P X V pb gb r1 r2).
    Proof.
      intros [H1 L1] [H2 L2] [H3 L3] [H4 L4] [H5 L5] [H6 L6]. unfold velocity. split.
      - apply Forall_forall. intros y Hy. apply map2_In in Hy.
        destruct Hy as ((x & v) & ((a & b) & (c & d)) & Ha & Hb & ->).
        pose proof (in_combine_l _ _ _ _ Ha) as I1. pose proof (in_combine_r _ _ _ _ Ha) as I2.
        pose proof (in_combine_l _ _ _ _ Hb) as I3. pose proof (in_combine_r _ _ _ _ Hb) as I4.
        pose proof (in_combine_l _ _ _ _ I3) as I5. pose proof (in_combine_r _ _ _ _ I3) as I6.
        pose proof (in_combine_l _ _ _ _ I4) as I7. pose proof (in_combine_r _ _ _ _ I4) as I8.
        rewrite Forall_forall in H1, H2, H3, H4, H5, H6.
        apply H1 in I1. apply H2 in I2. apply H5 in I5. apply H6 in I6. apply H3 in I7. apply H4 in I8.
        pose proof (po_w _ HP) as Hw. pose proof (po_c1 _ HP) as Hc1. pose proof (po_c2 _ HP) as Hc2.
        unfold velocity1. cbn [fst snd num_arith ENum EArith nadd nmul nsub].
        repeat first [apply fin_add|apply fin_mul|apply fin_sub]; assumption.
      - rewrite map2_length, !combine_length. elia.
    Qed.

    Lemma pso_mutation_ok X V pb gb r1 r2 : PBox P X -> VFin (ps_d P) V -> PBox P pb -> PBox P gb ->
      VFin (ps_d P) r1 -> VFin (ps_d P) r2 ->
      PBox P (fst (pso_mutation P X V pb gb r1 r2)) /\ VFin (ps_d P) (snd (pso_mutation P X V pb gb r1 r2)).
    Proof.
      intros HX HV Hpb Hgb Hr1 Hr2. unfold pso_mutation. rewrite (po_con _ HP).
      destruct (velocity_fin X V pb gb r1 r2) as [F1 F2]; auto using PBox_fin.
      assert (HL : length (velocity P X V pb gb r1 r2) = length X).
      { rewrite (PBox_len X HX). exact F2. }
      assert (Hlu : length (ps_lower P) = length (ps_upper P)).
      { pose proof (po_lo _ HP). pose proof (po_up _ HP). elia. }
      destruct (pso_cons_ok (ps_lower P) (ps_upper P) X (velocity P X V pb gb r1 r2) Hlu HX F1 HL) as (A1 & A2 & A3).
      split; [exact A1|]. split; [exact A2|]. rewrite <- (PBox_len X HX). exact A3.
    Qed.

    Lemma safe_pso_sync it r1 r2 s : PSOInv P s ->
      length r1 = ps_p P -> Forall (Unit (ps_d P)) r1 -> length r2 = ps_p P -> Forall (Unit (ps_d P)) r2 ->
      safe (PBox P) Pc (pso_sync P it r1 r2 s) (fun r => PSOInv P (fst r)).
    Proof.
      intros HI Hr1 Hu1 Hr2 Hu2. unfold pso_sync.
      eapply safe_bind; [apply (safe_raise_if _ _ _ _ (fun _ => True)); auto|]. intros _ _. cbv zeta.
      assert (HXV : length (pso_moves P r1 r2 s) = ps_p P /\
                    Forall (fun xv => PBox P (fst xv) /\ VFin (ps_d P) (snd xv)) (pso_moves P r1 r2 s)).
      { destruct HI as [A1 A2 A3 A4 A5 A6 A7 A8]. unfold pso_moves. split.
        - rewrite map3_length, !combine_length. elia.
        - apply Forall_forall. intros xv Hin. apply (In_nth _ _ (([] : evec), ([] : evec))) in Hin.
          destruct Hin as (i & Hi & <-). rewrite map3_length, !combine_length in Hi.
          rewrite map3_nth with (a := (([] : vec), ([] : vec))) (b := ([] : vec)) (c := (([] : vec), ([] : vec)))
            by (rewrite ?combine_length; elia).
          rewrite !combine_nth by elia. cbn [fst snd].
          apply pso_mutation_ok; auto.
          + apply (Forall_nth_lt _ _ _ _ A1). elia.
          + apply (Forall_nth_lt _ _ _ _ A3). elia.
          + apply (Forall_nth_lt _ _ _ _ A5). elia.
          + apply Unit_fin. apply (Forall_nth_lt _ _ _ _ Hu1). elia.
          + apply Unit_fin. apply (Forall_nth_lt _ _ _ _ Hu2). elia. }
      destruct HXV as [HL HXV]. set (XV := pso_moves P r1 r2 s) in *. clearbody XV.
      destruct HI as [A1 A2 A3 A4 A5 A6 A7 A8].
      eapply safe_bind.
      { unfold selection_sync. eapply safe_bind.
        - apply (safe_eval_pop _ _ (PBox P) _ (map fst XV) HM); auto.
          apply Forall_forall. intros y Hy. apply in_map_iff in Hy. destruct Hy as (xv & <- & Hin).
          rewrite Forall_forall in HXV. apply HXV, Hin.
        - intros [U f] (HU & HUl & HF & _). cbn [fst snd] in *. rewrite map_length in *.
          eapply safe_bind; [apply safe_np_argmin|]. intros i [_ Hne].
          apply (safe_ret _ _ _ (fun sel : SelSync => Forall (PBox P) (ss_x sel) /\ length (ss_x sel) = ps_p P /\
            length (ss_xfun sel) = ps_p P /\ PBox P (ss_best sel) /\ Forall (PBox P) (ss_cand sel) /\
            length (ss_cand sel) = ps_p P)). cbn.
          assert (HS : Forall (PBox P) (sel_x U f (pss_pbest s) (pss_pbestfit s))) by (apply sel_x_Forall; auto).
          assert (HSL : length (sel_x U f (pss_pbest s) (pss_pbestfit s)) = ps_p P).
          { rewrite sel_x_length. elia. }
          assert (HFL : length (sel_fun f (pss_pbestfit s)) = ps_p P).
          { unfold sel_fun. rewrite map2_length. elia. }
          split; [exact HS|]. split; [exact HSL|]. split; [exact HFL|]. split; [|split; [exact HU|elia]].
          apply (Forall_nth_lt _ _ _ _ HS). rewrite HSL, <- HFL. apply argmin_lt, Hne. }
      intros sel (S1 & S2 & S3 & S4 & S5 & S6). apply safe_ret. cbn. constructor; cbn; auto.
      - apply Forall_forall. intros y Hy. apply in_map_iff in Hy. destruct Hy as (xv & <- & Hin).
        rewrite Forall_forall in HXV. apply HXV, Hin.
      - rewrite map_length. exact HL.
    Qed.

    Lemma safe_alias X (Q : unit -> Prop) : Q tt -> safe (PBox P) Pc (pso_set_alias P X) Q.
    Proof. intros H. unfold pso_set_alias. apply safe_when; [|exact H]. intros _. apply safe_set_arg, H. Qed.

    Lemma safe_pso_async it r1 r2 s : PSOInv P s ->
      length r1 = ps_p P -> Forall (Unit (ps_d P)) r1 -> length r2 = ps_p P -> Forall (Unit (ps_d P)) r2 ->
      safe (PBox P) Pc (pso_async P it r1 r2 s) (fun r => PSOInv P (fst r)).
    Proof.
      intros HI Hr1 Hu1 Hr2 Hu2. unfold pso_async. eapply safe_bind.
      - apply (safe_foldM _ _ _ (fun a : PSOS * option Z => PSOInv P (fst a))); [exact HI|].
        intros [s1 st] i Hi [A1 A2 A3 A4 A5 A6 A7 A8]. apply in_seq in Hi. unfold pso_async_one. cbn [fst] in *.
        cbv zeta.
        destruct (pso_mutation_ok (nth i (pss_X s1) []) (nth i (pss_V s1) []) (nth i (pss_pbest s1) []) (pss_gbest s1)
                    (nth i r1 []) (nth i r2 [])) as [B1 B2]; auto.
        + apply (Forall_nth_lt _ _ _ _ A1). elia.
        + apply (Forall_nth_lt _ _ _ _ A3). elia.
        + apply (Forall_nth_lt _ _ _ _ A5). elia.
        + apply Unit_fin. apply (Forall_nth_lt _ _ _ _ Hu1). elia.
        + apply Unit_fin. apply (Forall_nth_lt _ _ _ _ Hu2). elia.
        + set (xv := pso_mutation P _ _ _ _ _ _) in *. clearbody xv.
          eapply safe_bind; [apply (safe_alias _ (fun _ => True)); exact I|]. intros _ _.
          eapply safe_bind.
          { unfold selection_async. eapply safe_bind; [apply (safe_call_fun _ _ _ (fun _ => True)); auto|].
            intros y _. apply safe_ret with (Q := fun sel : SelAsync => Forall (PBox P) (sa_x sel) /\
              length (sa_x sel) = ps_p P /\ length (sa_xfun sel) = ps_p P /\ PBox P (sa_best sel)).
            unfold async_sel. destruct (nleb y _); [|cbn; auto].
            destruct (nleb y _); cbn; rewrite !upd_length; auto using Forall_upd. }
          intros sel (S1 & S2 & S3 & S4). apply safe_ret. cbn.
          constructor; cbn; rewrite ?upd_length; auto using Forall_upd.
      - intros [s1 st] H. apply safe_ret. exact H.
    Qed.

    Lemma safe_pso_step sync it s : PSOInv P s ->
      safe (PBox P) Pc (pso_step P sync it s) (fun r => PSOInv P (fst r)).
    Proof.
      intros HI. unfold pso_step. eapply safe_bind; [apply safe_rand_mat, HE|]. intros r1 [Hr1 Hr1'].
      eapply safe_bind; [apply safe_rand_mat, HE|]. intros r2 [Hr2 Hr2'].
      eapply safe_bind.
      { instantiate (1 := fun r => PSOInv P (fst r)). destruct sync; [apply safe_pso_sync|apply safe_pso_async]; auto. }
      intros [s1 st] HI1. eapply safe_bind; [apply safe_rec_write|]. intros r _.
      apply safe_ret. destruct HI1. constructor; assumption.
    Qed.

    Lemma upd_many_len {A} idx (rows l : list A) : length (upd_many idx rows l) = length l.
    Proof.
      revert rows l. induction idx as [|i idx IH]; intros [|r rows] l; cbn; auto.
      rewrite IH. apply upd_length.
    Qed.
    Lemma upd_many_Forall {A} (Q : A -> Prop) idx (rows l : list A) :
      Forall Q rows -> Forall Q l -> Forall Q (upd_many idx rows l).
    Proof.
      revert rows l. induction idx as [|i idx IH]; intros [|r rows] l Hr Hl; cbn; auto.
      inversion Hr; subst. apply IH; auto using Forall_upd.
    Qed.

    Lemma VFin_zero d : VFin d (repeat n0 d).
    Proof.
      split; [|apply repeat_length]. apply Forall_forall. intros x Hx. apply repeat_spec in Hx. subst. exact I.
    Qed.

    Lemma safe_restart g it s : PSOInv P s -> safe (PBox P) Pc (restart P g it s) (PSOInv P).
    Proof.
      intros HI. unfold restart. destruct (nltb _ _); [|apply safe_ret, HI].
      eapply safe_bind; [apply (safe_raise_if _ _ _ _ (fun _ => True)); auto|]. intros _ _.
      eapply safe_bind; [apply (safe_orelse _ _ _ _ (fun _ => True)); auto|]. intros nw _.
      destruct (0 <? nw)%Z; [|apply safe_ret, HI]. cbv zeta.
      eapply safe_bind.
      { eapply safe_bind; [apply safe_urange|]. intros _ _.
        apply (safe_replicateM _ _ _ _ (PBox P)). eapply safe_conseq.
        - apply safe_uniform_row; [exact HE|]. pose proof (po_box _ HP) as HB. pose proof (po_lo _ HP) as L1.
          pose proof (po_up _ HP) as L2. revert HB L1 L2. generalize (ps_lower P) as lo, (ps_upper P) as up, (ps_d P) as d.
          induction lo as [|l lo IH]; intros [|u up] [|d] HB L1 L2; try discriminate; constructor.
          + cbn in HB. inversion HB as [|? ? (a & b & Heq & Hab)]; subst. injection Heq as -> ->.
            apply ENum_UniformLaw, Hab.
          + apply (IH up d); [inversion HB; assumption| |]; cbn in *; lia.
        - intros v Hv. unfold PBox. pose proof (po_box _ HP) as HB. revert Hv HB.
          generalize (combine (ps_lower P) (ps_upper P)) as bs. intros bs Hv.
          induction Hv as [|b v0 bs vs [Hb1 Hb2] Hv IH]; intros HB; constructor.
          + inversion HB as [|? ? (l & u & -> & Hlu)]; subst. cbn in Hb1, Hb2.
            destruct v0; cbn in *; try discriminate. rb. lra.
          + apply IH. inversion HB; assumption. }
      intros rows [Hrl Hrows]. eapply safe_bind; [apply (safe_alias _ (fun _ => True)); exact I|]. intros _ _.
      apply safe_ret. destruct HI as [A1 A2 A3 A4 A5 A6 A7 A8]. constructor; cbn [pss_X pss_V pss_pbest pss_gbest pss_pbestfit];
        rewrite ?upd_many_len; auto.
      - apply upd_many_Forall; auto.
      - apply upd_many_Forall; auto. apply Forall_forall. intros v Hv. apply repeat_spec in Hv. subst. apply VFin_zero.
      - apply upd_many_Forall; auto. apply Forall_forall. intros y Hy. apply in_map_iff in Hy.
        destruct Hy as (i & <- & Hi).
        assert (HX : Forall (PBox P) (upd_many (worst (pss_pbestfit s) (Z.to_nat nw)) rows (pss_X s))).
        { apply upd_many_Forall; auto. }
        apply (Forall_nth_lt _ _ _ _ HX). rewrite upd_many_len, A2, <- A7.
        eapply worst_lt; [|exact Hi]. apply (eo_argsort HE).
    Qed.

    Lemma safe_pso_post it s : PSOInv P s -> safe (PBox P) Pc (pso_post P it s) (PSOInv P).
    Proof. intros HI. unfold pso_post. destruct (ps_gamma P); [apply safe_restart, HI|apply safe_ret, HI]. Qed.
  End Step.

  Lemma in_range_fin lo hi x : @outside ENum (@nZ EArith lo) x (@nZ EArith hi) = false -> isfin x.
  Proof. unfold outside. destruct x; cbn; auto; discriminate. Qed.

  Lemma FiniteBox_combine rows : FiniteBox rows ->
    Forall (fun b => exists l u, b = (Fin l, Fin u) /\ l <= u) (combine (lows rows) (ups rows)).
  Proof.
    intros H. pose proof (@combine_bounds ENum rows) as Eq. cbn [num_arith ENum] in Eq. rewrite Eq.
    apply Forall_forall. intros b Hb. apply in_map_iff in Hb.
    destruct Hb as (r & <- & Hr). unfold FiniteBox in H. rewrite Forall_forall in H.
    destruct (H r Hr) as (l & u & -> & Hlu). exists l, u. cbn. auto.
  Qed.

  (** Feasible and not NaN is the same as [Cin], for finite bounds. *)
  Definition FBox (rows : matrix) (x : evec) : Prop := Box rows x /\ Forall (@isnum EArith) x.
  Lemma FBox_iff rows x : FiniteBox rows -> (FBox rows x <-> Forall2 Cin (combine (lows rows) (ups rows)) x).
  Proof.
    intros HF. apply FiniteBox_combine in HF. unfold FBox. rewrite Box_iff. revert HF.
    generalize (combine (lows rows) (ups rows)) as bs. intros bs HF. split.
    - intros [H HN]. revert HF HN. induction H as [|b v bs x [H1 H2] H IH]; intros HF HN; constructor.
      + inversion HF as [|? ? (l & u & -> & Hlu)]; subst. inversion HN as [|? ? Hv _]; subst.
        destruct v; cbn in *; unfold isnum in Hv; cbn in Hv; try discriminate. rb. lra.
      + inversion HF; inversion HN; subst; auto.
    - intros H. split; induction H as [|b v bs x Hb H IH]; constructor.
      + apply Cin_inb, Hb.
      + apply IH. inversion HF; assumption.
      + destruct b as [[] []], v; cbn in Hb; try tauto. unfold isnum. cbn. rb. lra.
      + apply IH. inversion HF; assumption.
  Qed.

  Lemma safe_cpso_run A rows : a_bounds (pa A) = D2 2 rows -> a_constraints (pa A) = Some "Shrink"%string ->
    FiniteBox rows ->
    (a_backend (pa A) = Some "mpi"%string -> BcastKeeps (FBox rows)) ->
    (forall x, a_x0 (pa A) = Some x -> Forall (FBox rows) (nd_rows x)) ->
    safe (FBox rows) (fun X st => Forall (FBox rows) X /\ FBox rows (cb_x st))
      (cpso_minimize A) (fun r => FBox rows (r_x r)).
  Proof.
    intros Hb Hc HF HB HX0.
    set (InC := (fun x : evec => Forall2 Cin (combine (lows rows) (ups rows)) x)).
    assert (HIC : forall x, InC x -> FBox rows x) by (intros x Hx; apply FBox_iff; assumption).
    assert (HCI : forall x, FBox rows x -> InC x) by (intros x Hx; apply FBox_iff; assumption).
    assert (HBC : a_backend (pa A) = Some "mpi"%string -> BcastKeeps InC).
    { intros Hm. apply (BcastKeeps_iff (FBox rows)); [|auto]. intros x; split; auto. }
    cut (safe InC (fun X st => Forall (FBox rows) X /\ FBox rows (cb_x st)) (cpso_minimize A) (fun r => FBox rows (r_x r))).
    { intros H s. destruct (H s) as (e & He & H1 & H2). exists e. split; [exact He|]. split; [|exact H2].
      eapply Forall_impl; [|exact H1]. intros [] Hev; cbn in *; auto. }
    unfold cpso_minimize. cbv zeta.
    eapply safe_bind; [apply safe_check_pop|]. intros ? HA.
    eapply safe_bind; [apply (safe_raise_if _ _ _ _ (fun _ => isfin (pa_inertia A))); apply in_range_fin|]; intros ? Hw.
    eapply safe_bind; [apply (safe_raise_if _ _ _ _ (fun _ => isfin (pa_cognitivity A))); apply in_range_fin|]; intros ? Hc1.
    eapply safe_bind; [apply (safe_raise_if _ _ _ _ (fun _ => isfin (pa_sociability A))); apply in_range_fin|]; intros ? Hc2.
    do 2 (eapply safe_bind; [apply (safe_raise_if _ _ _ _ (fun _ => True)); auto|]; intros _ _).
    eapply safe_bind; [apply safe_seed_and_cb|]; intros _ _.
    unfold cpso. eapply safe_bind; [apply (safe_eval_kindM _ _ HE _ _ _ InC), HBC|]. intros mode [HM _].
    cbv zeta. eapply safe_bind; [apply safe_unpack|]. intros lu (rows' & Hr & ->).
    rewrite Hb in Hr. injection Hr as <-.
    rewrite Hc. cbn [pso_cons_map String.eqb Ascii.eqb Bool.eqb orelse].
    eapply safe_bind; [apply (safe_ret _ _ _ (fun c => c = PSOShrink)); reflexivity|]. intros con ->.
    pose proof (pao_pop _ HA) as Hp.
    assert (HI : InitIs (pa A) rows InC Cin).
    { unfold InitIs. destruct (a_x0 (pa A)) as [x|] eqn:Hx.
      - specialize (HX0 x eq_refl). eapply Forall_impl; [|exact HX0]. exact HCI.
      - split; [|auto]. eapply Forall_impl; [|exact HF]. intros r (l & u & -> & Hlu). cbn.
        apply ENum_LhsLaw; [lia|exact Hlu]. }
    eapply safe_bind; [apply (safe_init HE _ _ _ rows InC Cin Hb HI HA)|]. intros X [HX1 HX2].
    eapply safe_bind; [apply (safe_raise_if _ _ _ _ (fun _ => True)); auto|]. intros _ _.
    eapply safe_bind; [apply (safe_eval_pop _ _ InC); auto|]. intros [X' f] (G1 & G2 & G3 & _).
    cbn [fst snd] in *.
    eapply safe_bind; [apply (safe_when _ _ _ _ (fun _ => True)); [intros _; apply safe_set_arg; exact I|exact I]|]. intros _ _.
    eapply safe_bind; [apply safe_np_argmin|]. intros gb [-> Hne].
    assert (Hg : InC (nth (argmin f) X' [])).
    { apply (Forall_nth_lt _ _ _ _ G1). rewrite G2, <- G3. apply argmin_lt, Hne. }
    eapply safe_bind; [apply safe_rec_alloc|]. intros nout _.
    eapply safe_bind; [apply safe_rec_write|]. intros r _.
    set (P := mkPSOParams _ _ _ _ _ _ _ _ _ _ _ _ _ _ _ _ _). set (s := mkPSOS _ _ _ _ _ _ _ _).
    assert (HP : PSOOk P).
    { constructor; cbn; rewrite ?Hb; auto; try apply map_length. apply FiniteBox_combine, HF. }
    assert (HIv : PSOInv P s).
    { constructor; cbn; auto.
      - exact (eq_trans G2 HX1).
      - apply Forall_forall. intros v Hv. apply repeat_spec in Hv. subst. apply VFin_zero.
      - apply repeat_length.
      - exact (eq_trans G3 HX1). }
    assert (Hcb : forall (it : Z) s1, PSOInv P s1 -> Forall (FBox rows) (pss_X s1) /\ FBox rows (pss_gbest s1)).
    { intros it s1 HI1. split; [|apply HIC, (pi_g _ _ HI1)]. eapply Forall_impl; [|exact (pi_X _ _ HI1)]. exact HIC. }
    eapply safe_bind.
    { apply (safe_when _ _ _ _ (fun _ => True)); [|exact I]. intros _. apply safe_call_cb; [|exact I].
      apply (Hcb 1%Z s HIv). }
    intros _ _. eapply safe_conseq.
    - apply (safe_drive _ _ (pso_drv P (is_sync (pa_updating A) (pa A))) (PSOInv P)).
      + intros it s1 HI1. apply safe_pso_step; auto.
      + intros it s1 HI1. apply safe_pso_post; auto.
      + intros it s1 HI1 _. apply (Hcb it s1 HI1).
      + exact HIv.
    - intros res (s1 & HI1 & -> & _). apply HIC, (pi_g _ _ HI1).
  Qed.

  (** ** C11 *)

  (** Exact arithmetic, finite bounds, initial swarm in the box (or Latin Hypercube): everything the
      objective and the callback are shown, and the returned point, is in the box (and no NaN); for
      cpso with its restarts, in both updating modes and in executions that end in an exception. *)
  Theorem C11_cpso A rows w a0 r st' :
    a_bounds (pa A) = D2 2 rows -> a_constraints (pa A) = Some "Shrink"%string -> FiniteBox rows ->
    (a_backend (pa A) = Some "mpi"%string -> BcastKeeps (FBox rows)) ->
    (forall x, a_x0 (pa A) = Some x -> Forall (FBox rows) (nd_rows x)) ->
    exec (cpso_minimize A) w a0 = (r, st') ->
    (forall x, In x (points (tr st')) -> FBox rows x) /\
    (forall X st, In (X, st) (cbs (tr st')) -> Forall (FBox rows) X /\ FBox rows (cb_x st)) /\
    (forall res, r = inl res -> FBox rows (r_x res)).
  Proof.
    intros Hb Hc HF HB HX0 Hx.
    exact (safe_exec _ _ _ _ _ _ _ _ (safe_cpso_run A rows Hb Hc HF HB HX0) Hx).
  Qed.

  Theorem C11_pso A rows w a0 r st' :
    a_bounds (psa A) = D2 2 rows -> a_constraints (psa A) = Some "Shrink"%string -> FiniteBox rows ->
    (a_backend (psa A) = Some "mpi"%string -> BcastKeeps (FBox rows)) ->
    (forall x, a_x0 (psa A) = Some x -> Forall (FBox rows) (nd_rows x)) ->
    exec (pso_minimize A) w a0 = (r, st') ->
    (forall x, In x (points (tr st')) -> FBox rows x) /\
    (forall X st, In (X, st) (cbs (tr st')) -> Forall (FBox rows) X /\ FBox rows (cb_x st)) /\
    (forall res, r = inl res -> FBox rows (r_x res)).
  Proof.
    intros Hb Hc HF HB HX0 Hx.
    exact (C11_cpso (mkCPSOArgs (psa A) (psa_inertia A) (psa_cognitivity A) (psa_sociability A) None
                                (psa_updating A)) rows w a0 r st' Hb Hc HF HB HX0 Hx).
  Qed.
End RunPso.
