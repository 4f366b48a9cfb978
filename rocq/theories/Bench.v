(** The benchmark functions: stochopy/factory/benchmark.py, and C41. *)
From Coq Require Import Reals Lra Lia Psatz.
From Verif Require Import Base Num NumR.

(** ** Model *)
Section Bench.
  Context {A : Arith}.
  Local Open Scope num_scope.

  (** np.arange(1, ndim + 1) *)
  Definition from1 (d : nat) : list T := map nN (seq 1 d).
  (** np.power(x, 4) *)
  Definition pow4 (x : T) : T := nsq (nsq x).
  Definition nprod (v : list T) : T := fold_left nmul v n1.

  (** factory/benchmark.py:28-34, [pi] is np.pi; [None]: ZeroDivisionError of 1.0 / ndim *)
  Definition ackley (pi : T) (x : list T) : option T :=
    match x with
    | [] => None
    | _ =>
        let e := nlit 27182818284590451 (-16) in
        let sum1 := nsqrt (n1 / nN (length x) * vsum (map nsq x)) in
        let sum2 := n1 / nN (length x) * vsum (map (fun v => ncos (nZ 2 * pi * v)) x) in
        Some (nZ 20 + e - nZ 20 * nexp (nlit (-2) (-1) * sum1) - nexp sum2)
    end.

  (** factory/benchmark.py:52-56 *)
  Definition griewank (x : list T) : T :=
    let sum1 := vsum (map nsq x) / nZ 4000 in
    let prod1 := nprod (map ncos (vdiv x (map nsqrt (from1 (length x))))) in
    n1 + sum1 - prod1.

  (** factory/benchmark.py:74-76 *)
  Definition quartic (x : list T) : T := vsum (vmul (from1 (length x)) (map pow4 x)).

  (** factory/benchmark.py:94-97 *)
  Definition rastrigin (pi : T) (x : list T) : T :=
    nZ 10 * nN (length x) + vsum (vsub (map nsq x) (map (fun v => nZ 10 * ncos (nZ 2 * pi * v)) x)).

  (** factory/benchmark.py:115-118 *)
  Definition rosenbrock (x : list T) : T :=
    let sum1 := vsum (map nsq (vsub (tl x) (map nsq (removelast x)))) in
    let sum2 := vsum (map (fun v => nsq (n1 - v)) (removelast x)) in
    nZ 100 * sum1 + sum2.

  (** factory/benchmark.py:136 *)
  Definition sphere (x : list T) : T := vsum (map nsq x).

  (** factory/benchmark.py:154-156 *)
  Definition styblinski_tang (x : list T) : T :=
    let sum1 := vsum (vadd (vsub (map pow4 x) (map (fun v => nZ 16 * nsq v) x)) (map (fun v => nZ 5 * v) x)) in
    nlit 5 (-1) * sum1 + nlit 3916599 (-5) * nN (length x).
End Bench.

(** ** Exact arithmetic *)
Local Open Scope R_scope.

Fixpoint Rsum (l : list R) : R := match l with [] => 0 | v :: t => v + Rsum t end.
Lemma vsum_R (l : list R) : @vsum RArith l = Rsum l.
Proof.
  unfold vsum. change (@n0 RArith) with 0.
  assert (H : forall a, fold_left Rplus l a = a + Rsum l).
  { induction l as [|x l IH]; intros a; cbn; [lra|]. rewrite IH. lra. }
  etransitivity; [apply H|]. lra.
Qed.

Lemma nN_R n : @nN RArith n = INR n.
Proof. unfold nN, nZ. cbn. symmetry. apply INR_IZR_INZ. Qed.

Lemma Rsum_nonneg l : (forall v, In v l -> 0 <= v) -> 0 <= Rsum l.
Proof.
  induction l as [|v l IH]; cbn; intros H; [lra|].
  assert (0 <= v) by auto. assert (0 <= Rsum l) by auto. lra.
Qed.
Lemma Rsum_zero l : (forall v, In v l -> 0 <= v) -> Rsum l = 0 -> forall v, In v l -> v = 0.
Proof.
  induction l as [|v l IH]; cbn; intros H Hs; [tauto|].
  assert (0 <= v) by auto. assert (0 <= Rsum l) by (apply Rsum_nonneg; auto).
  intros u [<-|Hu]; [lra|]. apply IH; auto. lra.
Qed.
Lemma Rsum_le l c : (forall v, In v l -> v <= c) -> Rsum l <= INR (length l) * c.
Proof.
  induction l as [|v l IH]; intros H; [cbn; lra|]. change (Rsum (v :: l)) with (v + Rsum l).
  cbn [length]. rewrite S_INR. assert (v <= c) by (apply H; left; reflexivity).
  assert (Rsum l <= INR (length l) * c) by (apply IH; intros; apply H; right; assumption). lra.
Qed.

Lemma sq_nonneg (v : R) : 0 <= v * v.
Proof. nra. Qed.
Lemma sq_zero (v : R) : v * v = 0 -> v = 0.
Proof. nra. Qed.

(** *** sphere *)
Lemma sphere_sum x : @sphere RArith x = Rsum (map (fun v => v * v) x).
Proof. apply vsum_R. Qed.
Lemma squares_nonneg x : forall v, In v (map (fun v => v * v) x) -> 0 <= v.
Proof. intros v Hv. apply in_map_iff in Hv. destruct Hv as (u & <- & _). apply sq_nonneg. Qed.
Lemma squares_zero x : Rsum (map (fun v => v * v) x) = 0 -> forall v, In v x -> v = 0.
Proof.
  intros H v Hv. apply sq_zero. apply (Rsum_zero _ (squares_nonneg x) H).
  apply in_map_iff. exists v; auto.
Qed.
Lemma Rsum_map_zero {B} (f : B -> R) x : (forall v, In v x -> f v = 0) -> Rsum (map f x) = 0.
Proof. induction x; cbn; intros H; [reflexivity|]. rewrite H by auto. rewrite IHx by auto. lra. Qed.

Theorem C41_sphere (x : list R) :
  0 <= @sphere RArith x /\ (@sphere RArith x = 0 <-> forall v, In v x -> v = 0).
Proof.
  rewrite sphere_sum. split; [apply Rsum_nonneg, squares_nonneg|].
  split; [apply squares_zero|]. intros H. apply Rsum_map_zero. intros v Hv. rewrite (H v Hv). lra.
Qed.

(** *** quartic *)
Lemma quartic_sum x : @quartic RArith x = Rsum (map2 Rmult (map INR (seq 1 (length x))) (map (fun v => (v * v) * (v * v)) x)).
Proof.
  unfold quartic. rewrite vsum_R. unfold vmul, from1. f_equal. f_equal.
  apply map_ext. intros; apply nN_R.
Qed.
Lemma quartic_from k x : (0 < k)%nat ->
  0 <= Rsum (map2 Rmult (map INR (seq k (length x))) (map (fun v => (v * v) * (v * v)) x)) /\
  (Rsum (map2 Rmult (map INR (seq k (length x))) (map (fun v => (v * v) * (v * v)) x)) = 0 <->
     forall v, In v x -> v = 0).
Proof.
  revert k. induction x as [|v x IH]; intros k Hk.
  - cbn. split; [lra|]. split; [intros _ ? []|reflexivity].
  - cbn [length seq map map2 Rsum].
    destruct (IH (S k) ltac:(lia)) as [H1 H2]. set (S := Rsum _) in *. clearbody S.
    assert (Hk' : 0 < INR k) by (apply lt_0_INR; exact Hk).
    pose proof (sq_nonneg (v * v)) as Hv. assert (H3 : 0 <= INR k * (v * v * (v * v))) by (apply Rmult_le_pos; lra).
    split; [lra|]. split.
    + intros H u [<-|Hu]; [|apply H2; [lra|exact Hu]].
      assert (Hz : INR k * (v * v * (v * v)) = 0) by lra.
      apply sq_zero, sq_zero. apply Rmult_integral in Hz. destruct Hz; [lra|assumption].
    + intros H. rewrite (H v (or_introl eq_refl)), (proj2 H2); [lra|]. intros u Hu. apply H; right; exact Hu.
Qed.
Theorem C41_quartic (x : list R) :
  0 <= @quartic RArith x /\ (@quartic RArith x = 0 <-> forall v, In v x -> v = 0).
Proof. rewrite quartic_sum. apply quartic_from. lia. Qed.

(** *** rastrigin, for every value of the constant pi *)
Lemma rastrigin_sum pi x :
  @rastrigin RArith pi x = Rsum (map (fun v => v * v + 10 * (1 - cos (2 * pi * v))) x).
Proof.
  unfold rastrigin. rewrite vsum_R, nN_R. cbn. unfold vsub.
  induction x as [|v x IH]; [cbn; lra|].
  cbn [map map2 length]. rewrite S_INR. cbn [Rsum].
  rewrite <- IH. cbn. lra.
Qed.
Theorem C41_rastrigin (pi : R) (x : list R) :
  0 <= @rastrigin RArith pi x /\ (@rastrigin RArith pi x = 0 <-> forall v, In v x -> v = 0).
Proof.
  rewrite rastrigin_sum.
  assert (HP : forall u, In u (map (fun v => v * v + 10 * (1 - cos (2 * pi * v))) x) -> 0 <= u).
  { intros u Hu. apply in_map_iff in Hu. destruct Hu as (v & <- & _). pose proof (COS_bound (2 * pi * v)).
    pose proof (sq_nonneg v). lra. }
  split; [apply Rsum_nonneg, HP|]. split.
  - intros H v Hv.
    assert (Hz : v * v + 10 * (1 - cos (2 * pi * v)) = 0).
    { apply (Rsum_zero _ HP H). apply in_map_iff. exists v; auto. }
    pose proof (COS_bound (2 * pi * v)). pose proof (sq_nonneg v). apply sq_zero. lra.
  - intros H. apply Rsum_map_zero. intros v Hv. rewrite (H v Hv), !Rmult_0_r, cos_0. lra.
Qed.

(** *** rosenbrock *)
Lemma rosenbrock_sum x : @rosenbrock RArith x =
  100 * Rsum (map (fun v => v * v) (map2 Rminus (tl x) (map (fun v => v * v) (removelast x)))) +
  Rsum (map (fun v => (1 - v) * (1 - v)) (removelast x)).
Proof. unfold rosenbrock. rewrite !vsum_R. reflexivity. Qed.

Lemma in_ones x : (forall v, In v x -> v = 1) -> x = repeat 1 (length x).
Proof. induction x as [|v x IH]; cbn; intros H; [reflexivity|]. rewrite (H v), <- IH; auto. Qed.

Theorem C41_rosenbrock (x : list R) :
  0 <= @rosenbrock RArith x /\
  ((2 <= length x)%nat -> (@rosenbrock RArith x = 0 <-> forall v, In v x -> v = 1)).
Proof.
  rewrite rosenbrock_sum.
  set (s1 := Rsum (map (fun v => v * v) _)). set (s2 := Rsum (map (fun v => (1 - v) * (1 - v)) _)).
  assert (H1 : 0 <= s1) by apply Rsum_nonneg, squares_nonneg.
  assert (HP : forall u, In u (map (fun v => (1 - v) * (1 - v)) (removelast x)) -> 0 <= u).
  { intros u Hu. apply in_map_iff in Hu. destruct Hu as (v & <- & _). apply sq_nonneg. }
  assert (H2 : 0 <= s2) by apply Rsum_nonneg, HP.
  split; [lra|]. intros Hl. split.
  - intros H.
    assert (Hz1 : s1 = 0) by lra. assert (Hz2 : s2 = 0) by lra.
    assert (HR : forall v, In v (removelast x) -> v = 1).
    { intros v Hv. assert (Hq : (1 - v) * (1 - v) = 0).
      { apply (Rsum_zero _ HP Hz2). apply in_map_iff. exists v; auto. }
      apply sq_zero in Hq. lra. }
    pose proof (squares_zero _ Hz1) as HT. clear - Hl HR HT.
    (* the last coordinate is the square of the one before it *)
    destruct (@exists_last _ x) as (y & l & ->); [destruct x; [cbn in Hl; lia|discriminate]|].
    rewrite removelast_last in *. rewrite app_length in Hl. cbn in Hl.
    intros v Hv. apply in_app_or in Hv. destruct Hv as [Hv|[<-|[]]]; [auto|].
    destruct (@exists_last _ y) as (z & m & ->); [destruct y; [cbn in Hl; lia|discriminate]|].
    assert (Hm : m = 1) by (apply HR, in_or_app; right; left; reflexivity).
    assert (Hd : l - m * m = 0).
    { apply HT. clear. rewrite map_app. cbn [map].
      assert (Hg : forall a z : list R, length a = length z -> In (l - m * m) (map2 Rminus (a ++ [l]) (map (fun v => v * v) z ++ [m * m]))).
      { induction a as [|a0 a IH]; intros [|z0 z1] Ha; try discriminate; cbn; [auto|]. right. apply IH. cbn in Ha. lia. }
      destruct z as [|z0 z]; [left; reflexivity|].
      cbn [app tl]. replace ((z ++ [m]) ++ [l]) with ((z ++ [m]) ++ [l]) by reflexivity.
      apply (Hg (z ++ [m]) (z0 :: z)). rewrite app_length. cbn. lia. }
    subst m. lra.
  - intros H. pose proof (in_ones x H) as Hx.
    assert (Hr : forall n, removelast (repeat 1 n) = repeat 1 (n - 1)).
    { intros n. induction n as [|n IH]; [reflexivity|]. destruct n; [reflexivity|].
      change (removelast (repeat 1 (S (S n)))) with (1 :: removelast (repeat 1 (S n))). rewrite IH. cbn. f_equal.
      rewrite Nat.sub_0_r. reflexivity. }
    assert (Hs2 : s2 = 0).
    { unfold s2. rewrite Hx, Hr. apply Rsum_map_zero. intros v Hv. apply repeat_spec in Hv. subst. lra. }
    assert (Hs1 : s1 = 0).
    { unfold s1. rewrite Hx, Hr. apply Rsum_map_zero. intros v Hv.
      assert (v = 0); [|subst; lra].
      clear - Hv. revert Hv. generalize (length x - 1)%nat as k. destruct (length x) as [|n]; [intros k; cbn; tauto|]. cbn [repeat tl].
      revert v. induction n as [|n IH]; intros v [|k]; cbn; try tauto.
      intros [<-|Hv]; [lra|]. apply (IH v k Hv). }
    lra.
Qed.

(** *** griewank *)
Lemma prod_R (l : list R) : @nprod RArith l = fold_right Rmult 1 l.
Proof.
  unfold nprod. change (@n1 RArith) with 1.
  assert (H : forall a, fold_left Rmult l a = a * fold_right Rmult 1 l).
  { induction l as [|x l IH]; intros a; cbn; [lra|]. rewrite IH. lra. }
  etransitivity; [apply H|]. lra.
Qed.
Lemma prod_le1 l : (forall v, In v l -> -1 <= v <= 1) -> -1 <= fold_right Rmult 1 l <= 1.
Proof.
  induction l as [|v l IH]; cbn; intros H; [lra|].
  assert (Hv : -1 <= v <= 1) by auto. assert (Hp : -1 <= fold_right Rmult 1 l <= 1) by auto.
  set (q := fold_right Rmult 1 l) in *. clearbody q. nra.
Qed.
Lemma griewank_prod x : exists q, -1 <= q <= 1 /\ @griewank RArith x = 1 + Rsum (map (fun v => v * v) x) / 4000 - q /\
  ((forall v, In v x -> v = 0) -> q = 1).
Proof.
  exists (fold_right Rmult 1 (map cos (@vdiv RArith x (map sqrt (@from1 RArith (length x)))))).
  split; [|split].
  - apply prod_le1. intros v Hv. apply in_map_iff in Hv. destruct Hv as (u & <- & _). apply COS_bound.
  - unfold griewank. rewrite vsum_R, prod_R. reflexivity.
  - intros H. generalize (map sqrt (@from1 RArith (length x))) as w. unfold vdiv. cbn.
    induction x as [|v x IH]; intros [|w0 w]; cbn; try reflexivity.
    rewrite IH by (intros u Hu; apply H; right; exact Hu). rewrite (H v) by (left; reflexivity). unfold Rdiv. rewrite Rmult_0_l, cos_0. lra.
Qed.
Theorem C41_griewank (x : list R) :
  0 <= @griewank RArith x /\ (@griewank RArith x = 0 <-> forall v, In v x -> v = 0).
Proof.
  destruct (griewank_prod x) as (q & Hq & -> & H0).
  pose proof (Rsum_nonneg _ (squares_nonneg x)) as Hs. set (s := Rsum _) in *.
  split; [lra|]. split.
  - intros H. apply squares_zero. fold s. lra.
  - intros H. rewrite (H0 H). unfold s. rewrite Rsum_map_zero; [lra|]. intros v Hv. rewrite (H v Hv). lra.
Qed.

(** *** ackley, for every value of the constant pi *)
(** the partial sums of the series of e, and their distance from it *)
Fixpoint e_term (n : nat) : R := match n with O => 1 | S k => e_term k / IZR (Z.of_nat (S k)) end.
Fixpoint e_sum (n : nat) : R := match n with O => 1 | S k => e_sum k + e_term (S k) end.
Lemma e_term_fact n : e_term n = / INR (fact n).
Proof.
  induction n as [|n IH]; [cbn; lra|]. cbn [e_term]. rewrite IH, fact_simpl, mult_INR, <- INR_IZR_INZ.
  field. split; [apply INR_fact_neq_0|apply not_0_INR; lia].
Qed.
Lemma e_sum_sum n : e_sum n = sum_f_R0 (fun i => / INR (fact i) * 1 ^ i) n.
Proof. induction n as [|n IH]; [cbn; lra|]. cbn [e_sum sum_f_R0]. rewrite IH, e_term_fact, pow1, Rmult_1_r. reflexivity. Qed.
Lemma e_sum_cv : Un_cv e_sum (exp 1).
Proof.
  unfold exp. destruct (exist_exp 1) as [l Hl]. cbn. intros eps He. destruct (Hl eps He) as [N HN].
  exists N. intros n Hn. rewrite e_sum_sum. apply HN, Hn.
Qed.
Lemma e_term_pos n : 0 < e_term n.
Proof. rewrite e_term_fact. apply Rinv_0_lt_compat, INR_fact_lt_0. Qed.
Lemma e_sum_low n : e_sum n <= exp 1.
Proof.
  destruct (Rle_dec (e_sum n) (exp 1)) as [|H]; [assumption|]. exfalso.
  destruct (e_sum_cv (e_sum n - exp 1)) as [N HN]; [lra|].
  assert (Hm : forall k, e_sum n <= e_sum (n + k)).
  { induction k as [|k IH]; [rewrite Nat.add_0_r; lra|]. rewrite Nat.add_succ_r. cbn [e_sum]. pose proof (e_term_pos (S (n + k))). lra. }
  specialize (HN (n + N)%nat ltac:(lia)). specialize (Hm N). unfold R_dist in HN. rewrite Rabs_right in HN; lra.
Qed.
Lemma e_sum_up n : exp 1 <= e_sum (S n) + e_term (S n).
Proof.
  assert (Hm : forall k, e_sum (S n + k) + e_term (S n + k) <= e_sum (S n) + e_term (S n)).
  { induction k as [|k IH]; [rewrite Nat.add_0_r; lra|]. rewrite Nat.add_succ_r. change (e_sum (S (S n + k))) with (e_sum (S n + k) + e_term (S (S n + k))).
    assert (2 * e_term (S (S n + k)) <= e_term (S n + k)); [|lra].
    change (e_term (S (S n + k))) with (e_term (S n + k) / IZR (Z.of_nat (S (S n + k)))).
    pose proof (e_term_pos (S n + k)) as Hp.
    assert (H2 : 2 <= IZR (Z.of_nat (S (S n + k)))) by (apply IZR_le; lia).
    set (a := e_term _) in *. set (z := IZR (Z.of_nat _)) in *. clearbody a z. apply (Rmult_le_reg_r z); [lra|]. unfold Rdiv.
    replace (2 * (a * / z) * z) with (2 * a) by (field; lra). nra. }
  destruct (Rle_dec (exp 1) (e_sum (S n) + e_term (S n))) as [|H]; [assumption|]. exfalso.
  destruct (e_sum_cv (exp 1 - (e_sum (S n) + e_term (S n)))) as [N HN]; [lra|].
  specialize (HN (S n + N)%nat ltac:(lia)). specialize (Hm N). pose proof (e_term_pos (S n + N)).
  unfold R_dist in HN. rewrite Rabs_left in HN; lra.
Qed.
Definition e_literal : R := 27182818284590451 / 10000000000000000.
Lemma e_literal_small : e_literal < exp 1.
Proof. unfold e_literal. pose proof (e_sum_low 19) as H. cbn in H. lra. Qed.
Lemma e_literal_close : exp 1 - e_literal < 2 / 10000000000000000.
Proof. unfold e_literal. pose proof (e_sum_up 20) as H. cbn in H. lra. Qed.

Lemma exp_le_mono a b : a <= b -> exp a <= exp b.
Proof. intros [H| ->]; [left; apply exp_increasing, H|lra]. Qed.
Lemma ackley_eq pi x : x <> [] -> @ackley RArith pi x =
  Some (20 + e_literal - 20 * exp (- (2 / 10) * sqrt (1 / INR (length x) * Rsum (map (fun v => v * v) x)))
         - exp (1 / INR (length x) * Rsum (map (fun v => cos (2 * pi * v)) x))).
Proof.
  destruct x as [|v x]; [congruence|]. intros _. unfold ackley. f_equal. rewrite !vsum_R, nN_R. cbn.
  unfold e_literal, Rlit. cbn. unfold nsq. cbn. f_equal. f_equal. f_equal. f_equal. f_equal. lra.
Qed.
Lemma ackley_form pi x : x <> [] -> exists s1 s2,
  0 <= s1 /\ s2 <= 1 /\ @ackley RArith pi x = Some (20 + e_literal - 20 * exp (- (2 / 10) * s1) - exp s2) /\
  ((forall v, In v x -> v = 0) -> s1 = 0 /\ s2 = 1).
Proof.
  intros Hx.
  assert (Hn : 0 < INR (length x)) by (apply lt_0_INR; destruct x; [congruence|cbn; lia]).
  exists (sqrt (1 / INR (length x) * Rsum (map (fun v => v * v) x))),
         (1 / INR (length x) * Rsum (map (fun v => cos (2 * pi * v)) x)).
  split; [apply sqrt_pos|]. split; [|split].
  - assert (Hs : Rsum (map (fun v => cos (2 * pi * v)) x) <= INR (length x) * 1).
    { pose proof (Rsum_le (map (fun v => cos (2 * pi * v)) x) 1) as Hb. rewrite map_length in Hb. apply Hb. intros u Hu.
      apply in_map_iff in Hu. destruct Hu as (v & <- & _). apply COS_bound. }
    apply (Rmult_le_reg_l (INR (length x))); [exact Hn|].
    replace (INR (length x) * (1 / INR (length x) * Rsum (map (fun v => cos (2 * pi * v)) x)))
      with (Rsum (map (fun v => cos (2 * pi * v)) x)) by (field; lra). exact Hs.
  - apply ackley_eq, Hx.
  - intros H. rewrite (Rsum_map_zero (fun v => v * v)) by (intros v Hv; rewrite (H v Hv); lra).
    split; [rewrite Rmult_0_r; apply sqrt_0|].
    assert (Hs : Rsum (map (fun v => cos (2 * pi * v)) x) = INR (length x)).
    { clear - H. induction x as [|v x IH]; [reflexivity|]. cbn [length map Rsum]. rewrite S_INR, IH by (intros; apply H; right; assumption).
      rewrite (H v) by (left; reflexivity). rewrite Rmult_0_r, cos_0. lra. }
    rewrite Hs. field. lra.
Qed.

(** the minimum is at the origin, and it is not 0 but the error of the literal, which is negative *)
Theorem C41_ackley (pi : R) (x : list R) : x <> [] ->
  exists y, @ackley RArith pi x = Some y /\ e_literal - exp 1 <= y /\
    ((forall v, In v x -> v = 0) -> y = e_literal - exp 1).
Proof.
  intros Hx. destruct (ackley_form pi x Hx) as (s1 & s2 & H1 & H2 & He & H0).
  eexists. split; [exact He|]. split.
  - assert (exp (- (2 / 10) * s1) <= exp 0) by (apply exp_le_mono; lra).
    assert (exp s2 <= exp 1) by (apply exp_le_mono; lra).
    rewrite exp_0 in *. lra.
  - intros H. destruct (H0 H) as [-> ->]. rewrite Rmult_0_r, exp_0. lra.
Qed.
(** the origin is the only minimiser *)
Theorem C41_ackley_strict (pi : R) (x : list R) y :
  @ackley RArith pi x = Some y -> y = e_literal - exp 1 -> forall v, In v x -> v = 0.
Proof.
  intros Ha Hy. assert (Hx : x <> []) by (intros ->; discriminate).
  assert (Hn : 0 < INR (length x)) by (apply lt_0_INR; destruct x; [congruence|cbn; lia]).
  assert (Hf : y = 20 + e_literal - 20 * exp (- (2 / 10) * sqrt (1 / INR (length x) * Rsum (map (fun v => v * v) x)))
                   - exp (1 / INR (length x) * Rsum (map (fun v => cos (2 * pi * v)) x))).
  { rewrite (ackley_eq pi x Hx) in Ha. injection Ha as <-. reflexivity. }
  set (s1 := sqrt _) in Hf. set (s2 := 1 / INR (length x) * Rsum (map (fun v => cos (2 * pi * v)) x)) in Hf.
  assert (H2 : s2 <= 1).
  { unfold s2. assert (Hs : Rsum (map (fun v => cos (2 * pi * v)) x) <= INR (length x) * 1).
    { pose proof (Rsum_le (map (fun v => cos (2 * pi * v)) x) 1) as Hb. rewrite map_length in Hb. apply Hb. intros u Hu.
      apply in_map_iff in Hu. destruct Hu as (v & <- & _). apply COS_bound. }
    apply (Rmult_le_reg_l (INR (length x))); [exact Hn|].
    replace (INR (length x) * (1 / INR (length x) * Rsum (map (fun v => cos (2 * pi * v)) x)))
      with (Rsum (map (fun v => cos (2 * pi * v)) x)) by (field; lra). exact Hs. }
  assert (H1 : 0 <= s1) by apply sqrt_pos.
  assert (He2 : exp s2 <= exp 1) by (apply exp_le_mono; lra).
  assert (Hz : s1 = 0).
  { destruct (Req_dec s1 0) as [|Hne]; [assumption|]. exfalso.
    assert (exp (- (2 / 10) * s1) < exp 0) by (apply exp_increasing; lra). rewrite exp_0 in *. lra. }
  unfold s1 in Hz. pose proof (Rsum_nonneg _ (squares_nonneg x)) as Hs.
  apply sqrt_eq_0 in Hz; [|apply Rmult_le_pos; [unfold Rdiv; rewrite Rmult_1_l; left; apply Rinv_0_lt_compat, Hn|exact Hs]].
  apply squares_zero. apply Rmult_integral in Hz. destruct Hz as [Hz|Hz]; [|exact Hz].
  exfalso. unfold Rdiv in Hz. rewrite Rmult_1_l in Hz. pose proof (Rinv_0_lt_compat _ Hn). lra.
Qed.

(** *** styblinski_tang *)
Lemma styblinski_sum x : @styblinski_tang RArith x =
  Rsum (map (fun v => (v * v * (v * v) - 16 * (v * v) + 5 * v) / 2 + 3916599 / 100000) x).
Proof.
  unfold styblinski_tang. rewrite vsum_R, nN_R. unfold vadd, vsub. cbn. unfold Rlit. cbn.
  induction x as [|v x IH]; [cbn; lra|].
  cbn [map map2 length Rsum]. rewrite S_INR. rewrite <- IH. unfold pow4, nsq, nZ. cbn. lra.
Qed.
Lemma styblinski_coordinate (v : R) : - (2 / 10000) <= (v * v * (v * v) - 16 * (v * v) + 5 * v) / 2 + 3916599 / 100000.
Proof.
  set (t := v + 2903534 / 1000000).
  assert (Hv : v = t - 2903534 / 1000000) by (unfold t; lra).
  assert (Hq : 0 <= t * t * ((v - 2903534 / 1000000) * (v - 2903534 / 1000000))) by (apply Rmult_le_pos; apply sq_nonneg).
  rewrite Hv in *. clearbody t. nra.
Qed.
(** never below -2e-4 per coordinate; below zero at some point of every dimension *)
Theorem C41_styblinski_tang (x : list R) : - (2 / 10000) * INR (length x) <= @styblinski_tang RArith x.
Proof.
  rewrite styblinski_sum. induction x as [|v x IH]; [cbn; lra|].
  cbn [map length Rsum]. rewrite S_INR. pose proof (styblinski_coordinate v). lra.
Qed.
Theorem C41_styblinski_negative (d : nat) : (0 < d)%nat -> exists x, length x = d /\ @styblinski_tang RArith x < 0.
Proof.
  intros Hd. exists (repeat (- (29035 / 10000)) d). split; [apply repeat_length|].
  rewrite styblinski_sum.
  assert (H : forall n, Rsum (map (fun v => (v * v * (v * v) - 16 * (v * v) + 5 * v) / 2 + 3916599 / 100000) (repeat (- (29035 / 10000)) n)) <= - INR n * (1 / 10000)).
  { induction n as [|n IH]; [cbn; lra|]. cbn [repeat map Rsum]. rewrite S_INR. lra. }
  specialize (H d). assert (0 < INR d) by (apply lt_0_INR; exact Hd). lra.
Qed.

(** ** The values of tests/test_factory.py that exact arithmetic reproduces, at the point (1, ..., 1) of dimension 10 *)
Theorem C41_ones : let x := repeat 1 10 in
  @sphere RArith x = 10 /\ @quartic RArith x = 55 /\ @rosenbrock RArith x = 0 /\
  @rastrigin RArith PI x = 10 /\ @styblinski_tang RArith x = 3416599 / 10000.
Proof.
  cbv zeta. rewrite sphere_sum, quartic_sum, rosenbrock_sum, rastrigin_sum, styblinski_sum.
  rewrite !repeat_length.
  assert (Hc : cos (2 * PI * 1) = 1) by (rewrite Rmult_1_r; apply cos_2PI).
  repeat split; cbn -[INR cos PI]; rewrite ?Hc; try lra.
  rewrite !INR_IZR_INZ. cbn. lra.
Qed.
