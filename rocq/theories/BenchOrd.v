(** C41 in binary64 for every order of summation: numpy adds pairwise, in blocks, with several accumulators;
    whatever it does, the benchmark functions are not negative. *)
From Flocq Require Import Core.
From Coq Require Import Reals Lra Lia Floats Permutation.
From Verif Require Import Base Num NumR NumE NumF FBridge FLaws Bench BenchF.
Open Scope R_scope.
Local Open Scope list_scope.

(** [Red op z l v]: v is the result of combining the numbers of l with [op], in any order and with any
    parentheses; [z], the neutral element, may be used anywhere. *)
Inductive Red (op : float -> float -> float) (z : float) : list float -> float -> Prop :=
| red_none : Red op z [] z
| red_one x : Red op z [x] x
| red_join l1 l2 l a b : Permutation (l1 ++ l2) l -> Red op z l1 a -> Red op z l2 b -> Red op z l (op a b).

Lemma fold_Red op z l0 l a : Red op z l0 a -> Red op z (l0 ++ l) (fold_left op l a).
Proof.
  revert l0 a. induction l as [|x l IH]; intros l0 a Ha; cbn [fold_left]; [rewrite app_nil_r; exact Ha|].
  replace (l0 ++ x :: l) with ((l0 ++ [x]) ++ l) by (rewrite <- app_assoc; reflexivity).
  apply IH. apply red_join with (l1 := l0) (l2 := [x]); [reflexivity|exact Ha|apply red_one].
Qed.

(** a property of the parts, by number of terms *)
Lemma Red_ind' op z (P : nat -> float -> Prop) n l v :
  Red op z l v -> (length l <= n)%nat -> P 0%nat z -> (forall x, In x l -> P 1%nat x) ->
  (forall i j a b, (i + j <= n)%nat -> P i a -> P j b -> P (i + j)%nat (op a b)) -> P (length l) v.
Proof.
  intros H. induction H as [|x|l1 l2 l a b Hp H1 IH1 H2 IH2]; intros Hn Hz Hx Hop.
  - exact Hz.
  - apply Hx. left; reflexivity.
  - pose proof (Permutation_length Hp) as Hl. rewrite app_length in Hl. rewrite <- Hl. apply Hop; [lia| |].
    + apply IH1; [lia|exact Hz| |exact Hop]. intros x Hi. apply Hx. apply (Permutation_in _ Hp), in_or_app. left; exact Hi.
    + apply IH2; [lia|exact Hz| |exact Hop]. intros x Hi. apply Hx. apply (Permutation_in _ Hp), in_or_app. right; exact Hi.
Qed.

Section Ord.
  Context (F : FloatFuns).
  Notation AF := (FArith F).
  Notation Sums := (Red PrimFloat.add 0%float).
  Notation Prods := (Red PrimFloat.mul 1%float).

  Lemma Sums_vsum (l : list float) : Sums l (@vsum AF l).
  Proof. exact (fold_Red PrimFloat.add 0%float [] l 0%float (red_none _ _)). Qed.
  Lemma Prods_nprod (l : list float) : Prods l (@nprod AF l).
  Proof. exact (fold_Red PrimFloat.mul 1%float [] l 1%float (red_none _ _)). Qed.

  Lemma Sums_nneg l v : Sums l v -> Forall nneg l -> nneg v.
  Proof.
    intros H Hl. rewrite Forall_forall in Hl.
    refine (Red_ind' _ _ (fun _ v => nneg v) (length l) l v H (Nat.le_refl _) _ Hl _).
    - apply (nneg_Z 0). lia.
    - intros i j a b _. apply nneg_add.
  Qed.
  Lemma nneg_squares (l : list float) : Forall nneg (map (fun v => (v * v)%float) l).
  Proof. apply Forall_forall. intros v Hv. apply in_map_iff in Hv. destruct Hv as (u & <- & _). apply nneg_sq. Qed.

  (** factory/benchmark.py:136 *)
  Theorem C41_sphere_any_order (x : list float) v :
    Sums (map (fun v => (v * v)%float) x) v -> PrimFloat.ltb v 0 = false.
  Proof. intros H. apply nneg_ltb, (Sums_nneg _ _ H), nneg_squares. Qed.

  (** factory/benchmark.py:74-76, [pw] is np.power(v, 4): only required not to be negative *)
  Theorem C41_quartic_any_order (x : list float) (pw : float -> float) v :
    (Z.of_nat (length x) <= 2 ^ 53)%Z -> (forall u, PrimFloat.ltb (pw u) 0 = false) ->
    Sums (map2 PrimFloat.mul (map f_ofZ (map Z.of_nat (seq 1 (length x)))) (map pw x)) v ->
    PrimFloat.ltb v 0 = false.
  Proof.
    intros Hl Hp H. apply nneg_ltb, (Sums_nneg _ _ H), nneg_map2.
    - apply Forall_forall. intros u Hu. apply in_map_iff in Hu. destruct Hu as (k & <- & Hk).
      apply in_map_iff in Hk. destruct Hk as (i & <- & Hi). apply in_seq in Hi. apply nneg_Z. lia.
    - apply Forall_forall. intros u Hu. apply in_map_iff in Hu. destruct Hu as (k & <- & _).
      unfold nneg, nbel. specialize (Hp k). rewrite fe_ltb in Hp. exact Hp.
  Qed.

  (** factory/benchmark.py:115-118 *)
  Theorem C41_rosenbrock_any_order (a b : list float) s1 s2 :
    Sums (map (fun v => (v * v)%float) a) s1 -> Sums (map (fun v => (v * v)%float) b) s2 ->
    PrimFloat.ltb (100 * s1 + s2) 0 = false.
  Proof.
    intros H1 H2. apply nneg_ltb, nneg_add; [apply nneg_mul; [apply (nneg_Z 100); lia|]|];
      [apply (Sums_nneg _ _ H1)|apply (Sums_nneg _ _ H2)]; apply nneg_squares.
  Qed.

  Hypothesis HC : CosOK F.
  Lemma Prods_unit l v : Prods (map (@ncos AF) l) v -> unit_range (fe v).
  Proof.
    intros H. refine (Red_ind' _ _ (fun _ v => unit_range (fe v)) _ _ v H (Nat.le_refl _) _ _ _).
    - change (unit_range (fe (f_ofZ 1))). rewrite (fe_ofZ 1) by (cbn; lia). split; [rewrite nbel_fin|rewrite nabv_fin]; lra.
    - intros x Hx. apply in_map_iff in Hx. destruct Hx as (u & <- & _). apply cos_unit, HC.
    - intros i j a b _ Ha Hb. rewrite fe_mul. apply unit_mul; assumption.
  Qed.

  (** factory/benchmark.py:52-56; [q] is x / sqrt(1..ndim) *)
  Theorem C41_griewank_any_order (x q : list float) s p :
    Sums (map (fun v => (v * v)%float) x) s -> Prods (map (@ncos AF) q) p ->
    PrimFloat.ltb (1 + s / 4000 - p) 0 = false.
  Proof.
    intros H1 H2. apply nneg_ltb. pose proof (Prods_unit _ _ H2) as Hp.
    pose proof (Sums_nneg _ _ H1 (nneg_squares _)) as Hq. unfold nneg in Hq.
    assert (Hs : nneg (s / 4000)%float).
    { unfold nneg. assert (H4 : fe 4000 = Fin 4000) by (apply (fe_ofZ 4000); cbn; lia).
      rewrite fe_div by (rewrite H4; intros H; injection H; lra). rewrite H4. apply nbel_rnd; [apply flt_0|].
      nb (fe s); cbn [er_div].
      - destruct (Req_EM_T 4000 0); [lra|]. rewrite nbel_fin. apply Rmult_le_pos; [exact Hq|lra].
      - unfold er_sgn. destruct (Rlt_dec 0 4000); [reflexivity|lra]. }
    assert (H1e : fe 1 = Fin 1) by (apply (fe_ofZ 1); cbn; lia).
    unfold nneg. rewrite fe_sub, fe_add, H1e. apply nbel_rnd; [apply flt_0|]. replace 0 with (1 - 1) by lra. apply nbel_sub; [|apply Hp].
    apply nbel_rnd; [apply (flt_Z 1); cbn; lia|]. replace 1 with (1 + 0) by lra. apply nbel_add; [rewrite nbel_fin; lra|exact Hs].
  Qed.

  (** factory/benchmark.py:94-97; [q] is 2 pi x *)
  Theorem C41_rastrigin_any_order (x q : list float) v :
    (10 * Z.of_nat (length x) <= 2 ^ 53)%Z ->
    Sums (map2 PrimFloat.sub (map (fun v => (v * v)%float) x) (map (fun u => (10 * @ncos AF u)%float) q)) v ->
    PrimFloat.ltb (10 * f_ofZ (Z.of_nat (length x)) + v) 0 = false.
  Proof.
    intros Hl H. apply nneg_ltb. set (n := length x) in *.
    assert (H10 : fe 10 = Fin 10) by (apply (fe_ofZ 10); cbn; lia).
    set (l := map2 _ _ _) in H.
    assert (Hlen : (length l <= n)%nat) by (unfold l; rewrite map2_length, !map_length; exact (Nat.le_min_l _ _)).
    assert (Hs : nbel (- (10 * INR (length l))) (fe v)).
    { refine (Red_ind' _ _ (fun k v => nbel (- (10 * INR k)) (fe v)) n l v H Hlen _ _ _).
      - assert (H0 : fe 0 = Fin 0) by (apply (fe_ofZ 0); cbn; lia). rewrite H0, nbel_fin. cbn. lra.
      - intros u Hu. unfold l in Hu. cbn [INR].
        assert (Hf : exists a b, u = (a * a - 10 * @ncos AF b)%float).
        { clear -Hu. revert q Hu. induction x as [|a x IH]; intros [|b q] Hu; cbn in Hu; try contradiction.
          destruct Hu as [<-|Hu]; [exists a, b; reflexivity|exact (IH q Hu)]. }
        destruct Hf as (a & b & ->). rewrite fe_sub, !fe_mul, H10. replace (- (10 * 1)) with (-10) by lra.
        apply nbel_rnd; [apply (flt_Z (-10)); cbn; lia|].
        replace (-10) with (0 - 10) by lra. apply nbel_sub; [apply nbel_rnd; [apply flt_0|apply nbel_sq]|].
        apply nabv_rnd; [apply (flt_Z 10); cbn; lia|]. replace 10 with (10 * 1) at 1 by lra. apply nabv_scale; [lra|]. apply cos_unit, HC.
      - intros i j a b Hij Ha Hb. rewrite fe_add. apply nbel_rnd.
        + replace (- (10 * INR (i + j))) with (IZR (- (10 * Z.of_nat (i + j)))) by (rewrite opp_IZR, mult_IZR, <- INR_IZR_INZ; reflexivity).
          apply flt_Z. lia.
        + replace (- (10 * INR (i + j))) with (- (10 * INR i) + - (10 * INR j)) by (rewrite plus_INR; lra). apply nbel_add; assumption. }
    clearbody l. unfold nneg. rewrite fe_add, fe_mul, H10, fe_ofZ by lia. cbn [er_mul].
    assert (Hm : er_rnd (Fin (10 * IZR (Z.of_nat n))) = Fin (10 * IZR (Z.of_nat n))).
    { rewrite <- mult_IZR. destruct (flt_Z (10 * Z.of_nat n) ltac:(lia)) as [H1 H2]. unfold er_rnd. rewrite rnd_fmt by exact H1.
      destruct (Rlt_dec _ _); [reflexivity|contradiction]. }
    rewrite Hm. apply nbel_rnd; [apply flt_0|].
    assert (Hle : nbel (10 * IZR (Z.of_nat n) + - (10 * INR (length l))) (er_add (Fin (10 * IZR (Z.of_nat n))) (fe v))).
    { apply nbel_add; [rewrite nbel_fin; lra|exact Hs]. }
    apply le_INR in Hlen. rewrite <- INR_IZR_INZ in Hle |- *.
    revert Hle. generalize (er_add (Fin (10 * INR n)) (fe v)) as y. intros y Hy. nb y. lra.
  Qed.
End Ord.

(** Two orders with different results: (1 + 2^-53) + 2^-53 and 1 + (2^-53 + 2^-53); both are covered. *)
Theorem C41_orders_differ : exists a b,
  Red PrimFloat.add 0%float [1; 0x1p-53; 0x1p-53]%float a /\ Red PrimFloat.add 0%float [1; 0x1p-53; 0x1p-53]%float b /\
  PrimFloat.eqb a b = false.
Proof.
  exists ((1 + 0x1p-53) + 0x1p-53)%float, (1 + (0x1p-53 + 0x1p-53))%float. split; [|split; [|reflexivity]].
  - apply red_join with (l1 := [1; 0x1p-53]%float) (l2 := [0x1p-53]%float); [reflexivity| |apply red_one].
    apply red_join with (l1 := [1]%float) (l2 := [0x1p-53]%float); [reflexivity|apply red_one|apply red_one].
  - apply red_join with (l1 := [1]%float) (l2 := [0x1p-53; 0x1p-53]%float); [reflexivity|apply red_one|].
    apply red_join with (l1 := [0x1p-53]%float) (l2 := [0x1p-53]%float); [reflexivity|apply red_one|apply red_one].
Qed.
