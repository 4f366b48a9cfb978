(** C58: below the box the penalty weights do not grow. *)
From Coq Require Import Reals Lra Psatz Permutation.
From Verif Require Import Base Num NumR NumE Env Common DE CPSO NA Mat CMAES VDCMA Hoare EvalRules Gen Steps Hist Runs
  CmaRun Best Inst Laws Adapt FeasNa.
Local Open Scope R_scope.

(** Not negative, or not a number. *)
Definition nneg (x : er) : Prop := er_ltb x (Fin 0) = false.
Lemma nneg_mul x y : nneg x -> nneg y -> nneg (er_mul x y).
Proof.
  unfold nneg. destruct x as [a| | |], y as [b| | |]; cbn; try discriminate; try reflexivity; intros H1 H2;
    unfold er_sgn, Rltb in *; repeat match goal with |- context [Rlt_dec ?a ?b] => destruct (Rlt_dec a b) end;
    repeat match goal with H : context [Rlt_dec ?a ?b] |- _ => destruct (Rlt_dec a b) end; cbn in *; try discriminate;
    try reflexivity; exfalso; nra.
Qed.
Lemma nneg_sqrt x : nneg (er_sqrt x).
Proof.
  unfold nneg, er_sqrt. destruct x as [a| | |]; try reflexivity. destruct (Rlt_dec a 0); [reflexivity|].
  cbn. unfold Rltb. destruct (Rlt_dec _ _); [|reflexivity]. pose proof (sqrt_pos a). lra.
Qed.

(** The step size of a run is not negative, so a variable whose mean is not above the upper bound
    keeps the weight it has (or is given the common one): in particular when the mean is below the
    lower bound, however far and for however many generations. *)
Theorem C58_below_box {E : Env ENum} d mu p n m sz var raw B B' mueff w j r s :
  @Enforced ENum E d mu p n m sz var raw B B' ->
  mueff = @ndiv EArith (nsq (Sum mu (Weight mu))) (Sum mu (fun k => nsq (Weight mu k))) ->
  (if b_setting B && existsb (fun k => Outside (nth k m n0)) (seq 0 d)
   then forall j, (j < d)%nat -> w j = nmul (nlit 20002 (-4)) (e_median (b_spreads B'))
   else forall j, (j < d)%nat -> w j = nth j (b_weight B) n0) ->
  (j < d)%nat -> nth j m n0 = Fin r -> r <= 1 -> sz = Fin s -> 0 <= s ->
  nth j (b_weight B') n0 = w j.
Proof.
  intros HE Hm Hw Hj Hr H1 Hs H0. pose proof (en_weight _ _ _ _ _ _ _ _ _ _ HE mueff Hm w Hw j Hj) as H. cbn zeta in H.
  rewrite H, Hr. clear H.
  assert (Ha : @nltb EArith (nZ 1) (Fin r) = false).
  { cbn. unfold Rltb. destruct (Rlt_dec _ _) as [Hl|]; [|reflexivity]. exfalso. cbn in Hl. lra. }
  change (@T (@num_arith ENum)) with er in *.
  change (@num_arith ENum) with EArith. rewrite Ha.
  assert (Hz : @nabs EArith (@nsub EArith (Fin r) (Fin r)) = Fin 0).
  { cbn. f_equal. replace (r - r) with 0 by ring. apply Rabs_R0. }
  rewrite Hz.
  match goal with |- context [@nltb EArith ?x (Fin 0)] => assert (Hx : @nltb EArith x (Fin 0) = false) end.
  { apply nneg_mul; [apply nneg_mul; [apply nneg_mul|]|apply nneg_sqrt].
    - unfold nneg. cbn. unfold Rltb. destruct (Rlt_dec _ _); [exfalso; lra|reflexivity].
    - unfold pymax. match goal with |- nneg (if ?b then _ else _) => destruct b end.
      + apply nneg_sqrt.
      + unfold nneg. cbn. unfold Rltb. destruct (Rlt_dec _ _); [exfalso; lra|reflexivity].
    - subst sz. unfold nneg. cbn. unfold Rltb. destruct (Rlt_dec _ _); [exfalso; lra|reflexivity]. }
  rewrite Hx. rewrite andb_false_r. reflexivity.
Qed.

(** The mean is at -2, one unit below the box, where the first weights are set. *)
Theorem C58_below_box_hypotheses {E : Env ENum} (raw : list er) :
  exists B B' : @Border ENum, NoBorder 1 B /\
    @Enforced ENum E 1 1 2 1 [Fin (-2)] (Fin 1) (fun _ => Fin 1) raw B B' /\ Outside (Fin (-2)) = true /\ (-2 <= 1)%R /\
    nth 0 (b_weight B') n0 = nmul (nlit 20002 (-4)) (e_median (b_spreads B')).
Proof.
  set (B := @mkBorder ENum [n0] [nZ 1] false true [Fin 0]).
  assert (HB : NoBorder 1 B).
  { constructor; try reflexivity. split; [reflexivity|]. intros j Hj. destruct j as [|j]; [reflexivity|].
    exfalso. apply (Nat.nlt_0_r j). lia. }
  assert (HL : @LeastPositive ENum (b_spreads B) (nZ 1)).
  { split; [left; reflexivity|]. split.
    - cbn. unfold Rltb. destruct (Rlt_dec _ _); [reflexivity|]. exfalso. cbn in *. lra.
    - intros L x [<-|[]] _. cbn. unfold Rleb. destruct (Rle_dec _ _); [reflexivity|exfalso; cbn in *; lra]. }
  destruct (Enforced_exists (N := ENum) 1 1 2 1 [Fin (-2)] (Fin 1) (fun _ => Fin 1) raw B (nZ 1) HL) as [B' HE].
  assert (Ho : @Outside ENum (Fin (-2)) = true).
  { unfold Outside. cbn. unfold Rltb. destruct (Rlt_dec _ _); [reflexivity|exfalso; cbn in *; lra]. }
  exists B, B'. split; [exact HB|]. split; [exact HE|]. split; [exact Ho|]. split; [lra|].
  apply (C58_below_box 1 1 2 1 [Fin (-2)] (Fin 1) (fun _ => Fin 1) raw B B' _ (fun _ => nmul (nlit 20002 (-4)) (e_median (b_spreads B')))
           0 (-2) 1 HE eq_refl); try reflexivity; try lra; auto.
  change (b_setting B) with true. cbn [seq existsb nth]. rewrite Ho. cbn. intros; reflexivity.
Qed.
