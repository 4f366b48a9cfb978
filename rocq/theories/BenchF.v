(** C41 in binary64: the rounded benchmark functions are never negative. *)
From Flocq Require Import Core.
From Coq Require Import Reals Lra Lia Floats.
From Verif Require Import Base Num NumR NumE NumF FBridge FLaws Bench.
Open Scope R_scope.

(** not below [b], not above [b] (NaN is neither) *)
Definition nbel (b : R) (x : er) : Prop := er_ltb x (Fin b) = false.
Definition nabv (b : R) (x : er) : Prop := er_ltb (Fin b) x = false.
Lemma nbel_fin b r : nbel b (Fin r) <-> b <= r.
Proof. unfold nbel. cbn. apply Rltb_false. Qed.
Lemma nabv_fin b r : nabv b (Fin r) <-> r <= b.
Proof. unfold nabv. cbn. apply Rltb_false. Qed.
Ltac nb x := let r := fresh "r" in destruct x as [r| | |]; rewrite ?nbel_fin, ?nabv_fin in *; try reflexivity; try discriminate.

Definition flt (b : R) : Prop := fmt b /\ Rabs b < fmax.
Lemma flt_Z z : (Z.abs z <= 2 ^ 53)%Z -> flt (IZR z).
Proof. intros H. split; [apply fmt_Z, H|apply fmax_big; lia]. Qed.

Lemma nbel_rnd b x : flt b -> nbel b x -> nbel b (er_rnd x).
Proof.
  intros [Hf Hm] H. nb x. unfold er_rnd. assert (Hr : b <= rnd r) by (rewrite <- (rnd_fmt b Hf); apply rnd_mono, H).
  destruct (Rlt_dec _ _) as [_|Hn]; [rewrite nbel_fin; exact Hr|]. destruct (Rlt_dec 0 r) as [_|Hn']; [reflexivity|exfalso].
  apply Hn. apply Rle_lt_trans with (Rabs b); [|exact Hm]. assert (rnd r <= 0) by (apply rnd_neg; lra).
  rewrite !Rabs_left1 by lra. lra.
Qed.
Lemma nabv_rnd b x : flt b -> nabv b x -> nabv b (er_rnd x).
Proof.
  intros [Hf Hm] H. nb x. unfold er_rnd. assert (Hr : rnd r <= b) by (rewrite <- (rnd_fmt b Hf); apply rnd_mono, H).
  destruct (Rlt_dec _ _) as [_|Hn]; [rewrite nabv_fin; exact Hr|]. destruct (Rlt_dec 0 r) as [Hp|Hn']; [exfalso|reflexivity].
  apply Hn. apply Rle_lt_trans with (Rabs b); [|exact Hm]. assert (0 <= rnd r) by (apply rnd_pos; lra).
  rewrite !Rabs_pos_eq by lra. exact Hr.
Qed.
Lemma nbel_add a b x y : nbel a x -> nbel b y -> nbel (a + b) (er_add x y).
Proof. intros Hx Hy. nb x; nb y; cbn [er_add]; rewrite ?nbel_fin; try reflexivity. lra. Qed.
Lemma nbel_sub a b x y : nbel a x -> nabv b y -> nbel (a - b) (er_sub x y).
Proof. intros Hx Hy. nb x; nb y; cbn [er_sub er_opp er_add]; rewrite ?nbel_fin; try reflexivity. lra. Qed.
Lemma nbel_sq x : nbel 0 (er_mul x x).
Proof. destruct x; cbn [er_mul]; rewrite ?nbel_fin; try reflexivity. nra. Qed.
Lemma nbel_mul x y : nbel 0 x -> nbel 0 y -> nbel 0 (er_mul x y).
Proof.
  intros Hx Hy.
  assert (HS : forall r : R, 0 <= r -> nbel 0 (er_sgn r PInf NInf NaN)).
  { intros r Hr. unfold er_sgn. destruct (Rlt_dec 0 r); [reflexivity|]. destruct (Rlt_dec r 0); [lra|reflexivity]. }
  nb x; nb y; cbn [er_mul]; [rewrite nbel_fin; nra|apply HS; assumption|apply HS; assumption].
Qed.
Lemma nabv_scale c b y : 0 < c -> nabv b y -> nabv (c * b) (er_mul (Fin c) y).
Proof.
  intros Hc Hy. nb y; cbn [er_mul]; [rewrite nabv_fin; nra|]. unfold er_sgn. destruct (Rlt_dec 0 c); [reflexivity|contradiction].
Qed.
Definition unit_range (x : er) : Prop := nbel (-1) x /\ nabv 1 x.
Lemma unit_mul x y : unit_range x -> unit_range y -> unit_range (er_rnd (er_mul x y)).
Proof.
  intros [H1 H2] [H3 H4].
  assert (HF : flt (-1) /\ flt 1) by (split; apply flt_Z; cbn; lia). destruct HF as [Hm Hp].
  split; [apply nbel_rnd; [exact Hm|]|apply nabv_rnd; [exact Hp|]]; nb x; nb y; cbn [er_mul]; rewrite ?nbel_fin, ?nabv_fin; nra.
Qed.

(** ** Lists of floats *)
Local Open Scope list_scope.
Section Fl.
  Context (F : FloatFuns).
  Notation AF := (FArith F).
  Definition nneg (x : float) : Prop := nbel 0 (fe x).
  Lemma flt_0 : flt 0. Proof. apply (flt_Z 0). cbn. lia. Qed.
  Lemma nneg_add x y : nneg x -> nneg y -> nneg (x + y)%float.
  Proof. intros Hx Hy. unfold nneg. rewrite fe_add. apply nbel_rnd; [apply flt_0|]. replace 0 with (0 + 0) by lra. apply nbel_add; assumption. Qed.
  Lemma nneg_sq x : nneg (x * x)%float.
  Proof. unfold nneg. rewrite fe_mul. apply nbel_rnd; [apply flt_0|]. apply nbel_sq. Qed.
  Lemma nneg_mul x y : nneg x -> nneg y -> nneg (x * y)%float.
  Proof. intros Hx Hy. unfold nneg. rewrite fe_mul. apply nbel_rnd; [apply flt_0|]. apply nbel_mul; assumption. Qed.
  Lemma nneg_Z z : (0 <= z <= 2 ^ 53)%Z -> nneg (f_ofZ z).
  Proof. intros Hz. unfold nneg. rewrite fe_ofZ by lia. rewrite nbel_fin. apply (IZR_le 0), Hz. Qed.
  Lemma nneg_sum (l : list float) : Forall nneg l -> nneg (@vsum AF l).
  Proof.
    intros H. unfold vsum. assert (G : forall a : float, nneg a -> nneg (fold_left PrimFloat.add l a)).
    { induction H as [|x l Hx Hl IH]; intros a Ha; [exact Ha|]. cbn. apply IH, nneg_add; assumption. }
    apply G. apply (nneg_Z 0). lia.
  Qed.
  Lemma nneg_map2 (a b : list float) : Forall nneg a -> Forall nneg b -> Forall nneg (map2 PrimFloat.mul a b).
  Proof.
    intros Ha. revert b. induction Ha as [|u a Hu Ha IH]; intros b Hb; [constructor|]. destruct Hb as [|v b Hv Hb]; [constructor|].
    cbn. constructor; [apply nneg_mul; assumption|apply IH, Hb].
  Qed.
  Lemma nneg_ltb x : nneg x -> PrimFloat.ltb x 0 = false.
  Proof. intros H. rewrite fe_ltb. exact H. Qed.

  (** C41: sphere, quartic and rosenbrock are never negative, for every vector of floats. *)
  Theorem C41_sphere_binary64 (x : list float) : PrimFloat.ltb (@sphere AF x) 0 = false.
  Proof.
    apply nneg_ltb, nneg_sum, Forall_forall. intros v Hv. apply in_map_iff in Hv. destruct Hv as (u & <- & _). apply nneg_sq.
  Qed.
  Theorem C41_quartic_binary64 (x : list float) : (Z.of_nat (length x) <= 2 ^ 53)%Z -> PrimFloat.ltb (@quartic AF x) 0 = false.
  Proof.
    intros Hl. apply nneg_ltb, nneg_sum. unfold vmul, from1.
    assert (H1 : Forall nneg (map (@nN AF) (seq 1 (length x)))).
    { apply Forall_forall. intros v Hv. apply in_map_iff in Hv. destruct Hv as (k & <- & Hk). apply in_seq in Hk. apply nneg_Z. lia. }
    assert (H2 : Forall nneg (map (@pow4 AF) x)).
    { apply Forall_forall. intros v Hv. apply in_map_iff in Hv. destruct Hv as (u & <- & _). apply nneg_sq. }
    exact (nneg_map2 _ _ H1 H2).
  Qed.
  Theorem C41_rosenbrock_binary64 (x : list float) : PrimFloat.ltb (@rosenbrock AF x) 0 = false.
  Proof.
    apply nneg_ltb. unfold rosenbrock. cbv zeta. apply nneg_add; [apply nneg_mul; [apply (nneg_Z 100); lia|]|];
      apply nneg_sum, Forall_forall; intros v Hv; apply in_map_iff in Hv; destruct Hv as (u & <- & _); apply nneg_sq.
  Qed.

  (** The platform's cosine stays within [-1, 1] (or is NaN). *)
  Definition CosOK : Prop := forall x : float, PrimFloat.ltb 1 (@ncos AF x) = false /\ PrimFloat.ltb (@ncos AF x) (-1) = false.
  Hypothesis HC : CosOK.
  Lemma cos_unit (x : float) : unit_range (fe (@ncos AF x)).
  Proof.
    destruct (HC x) as [H1 H2]. rewrite fe_ltb in H1, H2. split.
    - unfold nbel. rewrite <- H2. f_equal. symmetry. exact (fe_ofZ (-1) ltac:(cbn; lia)).
    - unfold nabv. rewrite <- H1. f_equal. symmetry. exact (fe_ofZ 1 ltac:(cbn; lia)).
  Qed.
  Lemma prod_unit (l : list float) : unit_range (fe (@nprod AF (map (@ncos AF) l))).
  Proof.
    unfold nprod. assert (G : forall a : float, unit_range (fe a) -> unit_range (fe (fold_left PrimFloat.mul (map (@ncos AF) l) a))).
    { induction l as [|x l IH]; intros a Ha; [exact Ha|]. cbn. apply IH. rewrite fe_mul. apply unit_mul; [exact Ha|apply cos_unit]. }
    apply G. change (unit_range (fe (f_ofZ 1))). rewrite (fe_ofZ 1) by (cbn; lia). split; [rewrite nbel_fin|rewrite nabv_fin]; lra.
  Qed.
  Theorem C41_griewank_binary64 (x : list float) : PrimFloat.ltb (@griewank AF x) 0 = false.
  Proof.
    apply nneg_ltb. unfold griewank. cbv zeta.
    set (p := nprod _). assert (Hp : unit_range (fe p)) by apply prod_unit. clearbody p.
    set (s := ndiv _ _).
    assert (Hs : nneg s).
    { unfold s, nneg. change (nbel 0 (fe (PrimFloat.div (@vsum AF (map (@nsq AF) x)) (f_ofZ 4000)))).
      assert (H4 : fe (f_ofZ 4000) = Fin 4000) by (apply fe_ofZ; cbn; lia).
      rewrite fe_div by (rewrite H4; intros H; injection H; lra). rewrite H4. apply nbel_rnd; [apply flt_0|].
      assert (Hq : nbel 0 (fe (@vsum AF (map (@nsq AF) x)))).
      { apply nneg_sum, Forall_forall. intros v Hv. apply in_map_iff in Hv. destruct Hv as (u & <- & _). apply nneg_sq. }
      nb (fe (@vsum AF (map (@nsq AF) x))); cbn [er_div].
      - destruct (Req_EM_T 4000 0); [lra|]. rewrite nbel_fin. apply Rmult_le_pos; [exact Hq|lra].
      - unfold er_sgn. destruct (Rlt_dec 0 4000); [reflexivity|lra]. }
    clearbody s. unfold nneg. change (nbel 0 (fe (PrimFloat.sub (PrimFloat.add (f_ofZ 1) s) p))). rewrite fe_sub, fe_add, (fe_ofZ 1) by (cbn; lia).
    apply nbel_rnd; [apply flt_0|]. replace 0 with (1 - 1) by lra. apply nbel_sub; [|apply Hp].
    apply nbel_rnd; [apply (flt_Z 1); cbn; lia|]. replace 1 with (1 + 0) by lra. apply nbel_add; [rewrite nbel_fin; lra|exact Hs].
  Qed.
  (** rastrigin: every term is at least -10, and so are their rounded sums at least -10 per term. *)
  Theorem C41_rastrigin_binary64 (pi : float) (x : list float) : (10 * Z.of_nat (length x) <= 2 ^ 53)%Z ->
    PrimFloat.ltb (@rastrigin AF pi x) 0 = false.
  Proof.
    intros Hl. apply nneg_ltb. unfold rastrigin.
    set (l := vsub _ _).
    assert (Hlen : (length l <= length x)%nat) by (unfold l, vsub; rewrite map2_length, !map_length; exact (Nat.le_min_l _ _)).
    assert (Ht : Forall (fun v : float => nbel (-10) (fe v)) l).
    { unfold l. clear -HC. unfold vsub. induction x as [|v x IH]; [constructor|]. cbn. constructor; [|exact IH].
      change (nbel (-10) (fe (PrimFloat.sub (PrimFloat.mul v v) (PrimFloat.mul (f_ofZ 10) (@ncos AF (PrimFloat.mul (PrimFloat.mul (f_ofZ 2) pi) v)))))).
      rewrite fe_sub, !fe_mul, (fe_ofZ 10) by (cbn; lia). apply nbel_rnd; [apply (flt_Z (-10)); cbn; lia|].
      replace (-10) with (0 - 10) by lra. apply nbel_sub; [apply nbel_rnd; [apply flt_0|apply nbel_sq]|].
      apply nabv_rnd; [apply (flt_Z 10); cbn; lia|]. replace 10 with (10 * 1) at 1 by lra. apply nabv_scale; [lra|]. apply cos_unit. }
    clearbody l.
    assert (Hs : nbel (- (10 * INR (length l))) (fe (@vsum AF l))).
    { unfold vsum.
      assert (G : forall (a : float) k, nbel (- (10 * INR k)) (fe a) -> (k + length l <= length x)%nat ->
        nbel (- (10 * INR (k + length l))) (fe (fold_left PrimFloat.add l a))).
      { clear Hlen. induction Ht as [|v l Hv Hl' IH]; intros a k Ha Hk; [cbn; rewrite Nat.add_0_r; exact Ha|].
        cbn [fold_left length] in *. rewrite <- plus_n_Sm in *.
        apply (IH _ (S k)); [|exact Hk]. rewrite fe_add. apply nbel_rnd.
        - replace (- (10 * INR (S k))) with (IZR (- (10 * Z.of_nat (S k)))) by (rewrite opp_IZR, mult_IZR, <- INR_IZR_INZ; reflexivity).
          apply flt_Z. cbn [length] in Hk. lia.
        - replace (- (10 * INR (S k))) with (- (10 * INR k) + -10) by (rewrite S_INR; lra). apply nbel_add; assumption. }
      apply (G _ 0%nat); [|exact Hlen]. change (nbel (- (10 * INR 0)) (fe (f_ofZ 0))). rewrite (fe_ofZ 0) by (cbn; lia).
      rewrite nbel_fin. cbn. lra. }
    unfold nneg. change (nbel 0 (fe (PrimFloat.add (PrimFloat.mul (f_ofZ 10) (f_ofZ (Z.of_nat (length x)))) (@vsum AF l)))).
    rewrite fe_add, fe_mul, !fe_ofZ by lia. cbn [er_mul].
    assert (Hm : er_rnd (Fin (10 * IZR (Z.of_nat (length x)))) = Fin (10 * IZR (Z.of_nat (length x)))).
    { rewrite <- mult_IZR. destruct (flt_Z (10 * Z.of_nat (length x)) ltac:(lia)) as [H1 H2]. unfold er_rnd. rewrite rnd_fmt by exact H1.
      destruct (Rlt_dec _ _); [reflexivity|contradiction]. }
    rewrite Hm. apply nbel_rnd; [apply flt_0|].
    assert (Hle : nbel (10 * IZR (Z.of_nat (length x)) + - (10 * INR (length l))) (er_add (Fin (10 * IZR (Z.of_nat (length x)))) (fe (@vsum AF l)))).
    { apply nbel_add; [rewrite nbel_fin; lra|exact Hs]. }
    apply le_INR in Hlen. rewrite <- INR_IZR_INZ in Hle |- *.
    revert Hle. generalize (er_add (Fin (10 * INR (length x))) (fe (@vsum AF l))) as y. intros y Hy. nb y. lra.
  Qed.
End Fl.
