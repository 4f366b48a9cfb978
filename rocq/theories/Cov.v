(** C28: the covariance update of CMA-ES keeps symmetric positive definite matrices, in exact
    arithmetic. *)
From Coq Require Import Reals Lra Psatz.
From Verif Require Import Base Num NumR Mat CMAES Weights.
Open Scope R_scope.

(** ** Matrices as functions *)
Fixpoint sumn (f : nat -> R) (n : nat) : R :=
  match n with O => 0 | S m => sumn f m + f m end.
Definition ent (m : list (list R)) (i j : nat) : R := nth j (nth i m []) 0.
Definition Shape (r c : nat) (m : list (list R)) : Prop :=
  length m = r /\ Forall (fun row => length row = c) m.
(** v' M v *)
Definition qf (d : nat) (M : list (list R)) (v : nat -> R) : R :=
  sumn (fun i => sumn (fun j => v i * ent M i j * v j) d) d.
Definition Symmetric (d : nat) (M : list (list R)) : Prop :=
  forall i j, (i < d)%nat -> (j < d)%nat -> ent M i j = ent M j i.
Definition PosDef (d : nat) (M : list (list R)) : Prop :=
  forall v, (exists i, (i < d)%nat /\ v i <> 0) -> 0 < qf d M v.
Definition PosSemi (d : nat) (M : list (list R)) : Prop := forall v, 0 <= qf d M v.

Lemma sumn_ext f g n : (forall i, (i < n)%nat -> f i = g i) -> sumn f n = sumn g n.
Proof. induction n as [|n IH]; intros H; cbn; [reflexivity|]. rewrite IH, H; auto with arith. Qed.
Lemma sumn_add f g n : sumn (fun i => f i + g i) n = sumn f n + sumn g n.
Proof. induction n as [|n IH]; cbn; lra. Qed.
Lemma sumn_scal a f n : sumn (fun i => a * f i) n = a * sumn f n.
Proof. induction n as [|n IH]; cbn; lra. Qed.
Lemma sumn_0 n : sumn (fun _ => 0) n = 0.
Proof. induction n as [|n IH]; cbn; lra. Qed.
Lemma sumn_nonneg f n : (forall i, (i < n)%nat -> 0 <= f i) -> 0 <= sumn f n.
Proof. induction n as [|n IH]; intros H; cbn; [lra|]. assert (0 <= f n) by auto. assert (0 <= sumn f n) by auto. lra. Qed.
Lemma sumn_swap f n m :
  sumn (fun i => sumn (fun j => f i j) m) n = sumn (fun j => sumn (fun i => f i j) n) m.
Proof.
  induction n as [|n IH]; cbn; [rewrite sumn_0; reflexivity|].
  rewrite IH. rewrite <- sumn_add. reflexivity.
Qed.
Lemma sumn_delta f n k : (k < n)%nat -> sumn (fun i => if (i =? k)%nat then f i else 0) n = f k.
Proof.
  induction n as [|n IH]; intros H; [lia|]. cbn. destruct (Nat.eq_dec k n) as [->|Hk].
  - rewrite Nat.eqb_refl. rewrite (sumn_ext _ (fun _ => 0)); [rewrite sumn_0; lra|].
    intros i Hi. destruct (Nat.eqb_spec i n); [lia|reflexivity].
  - rewrite IH by lia. destruct (Nat.eqb_spec n k); [lia|lra].
Qed.
Lemma sumn_S f n : sumn f (S n) = f 0%nat + sumn (fun i => f (S i)) n.
Proof. induction n as [|n IH]; cbn in *; [lra|]. rewrite IH. lra. Qed.

(** sum (u_i v_i) = (sum u_i) ... products of sums *)
Lemma sumn_prod f g n : sumn f n * sumn g n = sumn (fun i => sumn (fun j => f i * g j) n) n.
Proof.
  rewrite (sumn_ext (fun i => sumn (fun j => f i * g j) n) (fun i => sumn g n * f i)).
  - rewrite sumn_scal. lra.
  - intros i _. rewrite (sumn_scal (f i)). lra.
Qed.

(** ** Entries of the numpy operations *)
Lemma vdot_sumn (u v : list R) n : length u = n -> length v = n ->
  @vdot RArith u v = sumn (fun k => nth k u 0 * nth k v 0) n.
Proof.
  intros Hu Hv. unfold vdot. rewrite vsum_rsum. revert v n Hu Hv.
  induction u as [|a u IH]; intros [|b v] n Hu Hv; cbn in Hu, Hv; subst n; try discriminate; [reflexivity|].
  rewrite sumn_S. cbn [nth]. rewrite <- (IH v (length u)); [reflexivity|reflexivity|lia].
Qed.

Lemma nth_map_R {X} (f : X -> R) (l : list X) k x0 : (k < length l)%nat -> nth k (map f l) 0 = f (nth k l x0).
Proof.
  intros H. rewrite (nth_indep _ 0 (f x0)) by (rewrite map_length; exact H). apply map_nth.
Qed.
Lemma nth_map_row {X} (f : X -> list R) (l : list X) k x0 :
  (k < length l)%nat -> nth k (map f l) [] = f (nth k l x0).
Proof.
  intros H. rewrite (nth_indep _ [] (f x0)) by (rewrite map_length; exact H). apply map_nth.
Qed.
Lemma Shape_row r c m i : Shape r c m -> (i < r)%nat -> length (nth i m []) = c.
Proof.
  intros [Hl Hf] Hi. rewrite Forall_forall in Hf. apply Hf, nth_In. rewrite Hl. exact Hi.
Qed.
Lemma Shape_map {X} (f : X -> list R) (l : list X) r c :
  length l = r -> (forall x, In x l -> length (f x) = c) -> Shape r c (map f l).
Proof.
  intros Hl H. split; [rewrite map_length; exact Hl|]. apply Forall_map, Forall_forall. exact H.
Qed.

Lemma col_spec (m : list (list R)) j : @col RArith m j = map (fun r => nth j r 0) m.
Proof. reflexivity. Qed.
Lemma ent_mtab r c f i j : (i < r)%nat -> (j < c)%nat -> ent (@mtab RArith r c f) i j = f i j.
Proof.
  intros Hi Hj. unfold ent, mtab.
  rewrite (nth_map_row _ _ _ 0%nat) by (rewrite seq_length; exact Hi).
  rewrite (nth_map_R _ _ _ 0%nat) by (rewrite seq_length; exact Hj).
  rewrite !nth_seq0 by assumption. reflexivity.
Qed.
Lemma Shape_mtab r c f : Shape r c (@mtab RArith r c f).
Proof.
  unfold mtab. apply Shape_map; [apply seq_length|]. intros i _. rewrite map_length. apply seq_length.
Qed.
Lemma ent_mscale r c (k : R) m i j : Shape r c m -> (i < r)%nat -> (j < c)%nat ->
  ent (@mscale RArith k m) i j = ent m i j * k.
Proof.
  intros Hs Hi Hj. unfold ent, mscale.
  rewrite (nth_map_row _ m _ []) by (destruct Hs as [-> _]; exact Hi).
  apply (nth_map_R (fun x => x * k) (nth i m []) j 0). rewrite (Shape_row _ _ _ _ Hs Hi). exact Hj.
Qed.
Lemma Shape_mscale r c k m : Shape r c m -> Shape r c (@mscale RArith k m).
Proof.
  intros [Hl Hf]. apply Shape_map; [exact Hl|]. intros x Hx. rewrite Forall_forall in Hf.
  rewrite map_length. apply Hf, Hx.
Qed.
Lemma ent_mscale_l r c (k : R) m i j : Shape r c m -> (i < r)%nat -> (j < c)%nat ->
  ent (@mscale_l RArith k m) i j = k * ent m i j.
Proof.
  intros Hs Hi Hj. unfold ent, mscale_l.
  rewrite (nth_map_row _ m _ []) by (destruct Hs as [-> _]; exact Hi).
  apply (nth_map_R (fun x => k * x) (nth i m []) j 0). rewrite (Shape_row _ _ _ _ Hs Hi). exact Hj.
Qed.
Lemma Shape_mscale_l r c k m : Shape r c m -> Shape r c (@mscale_l RArith k m).
Proof.
  intros [Hl Hf]. apply Shape_map; [exact Hl|]. intros x Hx. rewrite Forall_forall in Hf.
  unfold vscale. rewrite map_length. apply Hf, Hx.
Qed.
Lemma ent_madd r c a b i j : Shape r c a -> Shape r c b -> (i < r)%nat -> (j < c)%nat ->
  ent (@madd RArith a b) i j = ent a i j + ent b i j.
Proof.
  intros Ha Hb Hi Hj. unfold ent, madd.
  assert (Ha1 : (i < length a)%nat) by (destruct Ha as [-> _]; exact Hi).
  assert (Hb1 : (i < length b)%nat) by (destruct Hb as [-> _]; exact Hi).
  assert (Ha2 : (j < length (nth i a []))%nat) by (rewrite (Shape_row _ _ _ _ Ha Hi); exact Hj).
  assert (Hb2 : (j < length (nth i b []))%nat) by (rewrite (Shape_row _ _ _ _ Hb Hi); exact Hj).
  transitivity (nth j (@vadd RArith (nth i a []) (nth i b [])) 0).
  { exact (f_equal (fun r => nth j r 0) (map2_nth (@vadd RArith) a b i [] [] [] Ha1 Hb1)). }
  apply (map2_nth Rplus (nth i a []) (nth i b []) j 0 0 0 Ha2 Hb2).
Qed.
Lemma Shape_madd r c a b : Shape r c a -> Shape r c b -> Shape r c (@madd RArith a b).
Proof.
  intros [La Fa] [Lb Fb]. unfold madd. change (@T RArith) with R in *. split; [rewrite map2_length, La, Lb; apply Nat.min_id|].
  apply Forall_map2. intros x y Hx Hy. rewrite Forall_forall in Fa, Fb.
  unfold vadd. change (@T RArith) with R in *. rewrite map2_length, (Fa _ Hx), (Fb _ Hy). apply Nat.min_id.
Qed.
Lemma ent_outer d (u v : list R) i j : length u = d -> length v = d -> (i < d)%nat -> (j < d)%nat ->
  ent (@outer RArith u v) i j = nth i u 0 * nth j v 0.
Proof.
  intros Hu Hv Hi Hj. unfold ent, outer.
  rewrite (nth_map_row _ u _ 0) by (rewrite Hu; exact Hi).
  exact (nth_map_R (fun x => nth i u 0 * x) v j 0 ltac:(rewrite Hv; exact Hj)).
Qed.
Lemma Shape_outer d (u v : list R) : length u = d -> length v = d -> Shape d d (@outer RArith u v).
Proof.
  intros Hu Hv. unfold outer. apply Shape_map; [exact Hu|]. intros x _. unfold vscale.
  rewrite map_length. exact Hv.
Qed.
Lemma ent_mmul r n c a b i j : Shape r n a -> Shape n c b -> (i < r)%nat -> (j < c)%nat ->
  ent (@mmul RArith c a b) i j = sumn (fun k => ent a i k * ent b k j) n.
Proof.
  intros Ha Hb Hi Hj. unfold ent at 1. unfold mmul.
  rewrite (nth_map_row _ a _ []) by (destruct Ha as [-> _]; exact Hi).
  unfold vmat. rewrite (nth_map_R _ (seq 0 c) _ 0%nat) by (rewrite seq_length; exact Hj).
  rewrite nth_seq0 by exact Hj.
  rewrite (vdot_sumn (nth i a []) (@col RArith b j) n).
  - apply sumn_ext. intros k Hk. unfold ent. f_equal. rewrite col_spec.
    rewrite (nth_map_R _ b k []) by (destruct Hb as [-> _]; exact Hk). reflexivity.
  - apply (Shape_row _ _ _ _ Ha Hi).
  - rewrite col_spec, map_length. apply Hb.
Qed.
Lemma Shape_mmul r n c a b : Shape r n a -> Shape r c (@mmul RArith c a b).
Proof.
  intros [Hl _]. unfold mmul. apply Shape_map; [exact Hl|]. intros x _. unfold vmat.
  rewrite map_length. apply seq_length.
Qed.
Lemma ent_mtrans r c m i j : Shape r c m -> (i < c)%nat -> (j < r)%nat ->
  ent (@mtrans RArith c m) i j = ent m j i.
Proof.
  intros Hs Hi Hj. unfold ent, mtrans.
  rewrite (nth_map_row _ (seq 0 c) _ 0%nat) by (rewrite seq_length; exact Hi).
  rewrite nth_seq0 by exact Hi. rewrite col_spec.
  rewrite (nth_map_R _ m j []) by (destruct Hs as [-> _]; exact Hj). reflexivity.
Qed.
Lemma Shape_mtrans r c m : length m = r -> Shape c r (@mtrans RArith c m).
Proof.
  intros Hl. unfold mtrans. apply Shape_map; [apply seq_length|]. intros i _.
  rewrite col_spec, map_length. exact Hl.
Qed.
Lemma ent_diagm (v : list R) i j : (i < length v)%nat -> (j < length v)%nat ->
  ent (@diagm RArith v) i j = if (i =? j)%nat then nth i v 0 else 0.
Proof. intros Hi Hj. unfold diagm. rewrite ent_mtab by assumption. reflexivity. Qed.
Lemma Shape_diagm (v : list R) : Shape (length v) (length v) (@diagm RArith v).
Proof. apply Shape_mtab. Qed.

(** ** The covariance update, entry by entry (cmaes/_cmaes.py:290-295) *)
Section Update.
  Variables (d : nat) (c1 cc cmu : R) (w : list R) (y : list (list R)) (pc : list R) (cond : bool)
            (C : list (list R)).
  Hypothesis HC : Shape d d C.
  Hypothesis Hy : Shape (length w) d y.
  Hypothesis Hpc : length pc = d.

  Definition memory : R := 1 - c1 - cmu + (if cond then 0 else c1 * cc * (2 - cc)).

  Lemma cov_shape : Shape d d (@cov_update RArith d c1 cc cmu w y pc cond C).
  Proof.
    unfold cov_update. cbn zeta.
    assert (H3 : Shape d d (@madd RArith (@madd RArith (@mscale RArith (1 - c1 - cmu) C)
       (@mscale_l RArith cmu (@mmul RArith d (@mmul RArith (length w) (@mtrans RArith d y) (@diagm RArith w)) y)))
       (@mscale_l RArith c1 (@outer RArith pc pc)))).
    { apply Shape_madd; [apply Shape_madd|].
      - apply Shape_mscale, HC.
      - apply Shape_mscale_l. eapply Shape_mmul. eapply Shape_mmul. apply Shape_mtrans, Hy.
      - apply Shape_mscale_l, Shape_outer; exact Hpc. }
    destruct cond.
    - destruct H3 as [H3 H4]. apply Shape_map; [exact H3|]. intros x Hx. rewrite map_length.
      rewrite Forall_forall in H4. apply H4, Hx.
    - apply Shape_madd; [exact H3|]. apply Shape_mscale_l, HC.
  Qed.

  Lemma cov_entry i j : (i < d)%nat -> (j < d)%nat ->
    ent (@cov_update RArith d c1 cc cmu w y pc cond C) i j =
    memory * ent C i j
    + cmu * sumn (fun k => nth k w 0 * (ent y k i * ent y k j)) (length w)
    + c1 * (nth i pc 0 * nth j pc 0).
  Proof.
    intros Hi Hj. unfold cov_update. cbn zeta.
    set (Y := @mmul RArith d (@mmul RArith (length w) (@mtrans RArith d y) (@diagm RArith w)) y).
    assert (HYs : Shape d d Y) by (eapply Shape_mmul; eapply Shape_mmul; apply Shape_mtrans, Hy).
    assert (HY : ent Y i j = sumn (fun k => nth k w 0 * (ent y k i * ent y k j)) (length w)).
    { unfold Y. rewrite (ent_mmul d (length w) d); [|eapply Shape_mmul; apply Shape_mtrans, Hy|exact Hy|exact Hi|exact Hj].
      apply sumn_ext. intros k Hk.
      rewrite (ent_mmul d (length w) (length w)); [|apply Shape_mtrans, Hy|apply Shape_diagm|exact Hi|exact Hk].
      rewrite (sumn_ext _ (fun l => if (l =? k)%nat then ent y k i * nth k w 0 else 0)).
      - rewrite (sumn_delta (fun _ => ent y k i * nth k w 0)) by exact Hk. lra.
      - intros l Hl. rewrite (ent_mtrans (length w) d) by assumption. rewrite ent_diagm by assumption.
        destruct (Nat.eqb_spec l k); [subst; reflexivity|]. lra. }
    assert (H3s : Shape d d (@madd RArith (@madd RArith (@mscale RArith (1 - c1 - cmu) C)
        (@mscale_l RArith cmu Y)) (@mscale_l RArith c1 (@outer RArith pc pc)))).
    { apply Shape_madd; [apply Shape_madd|].
      - apply Shape_mscale, HC.
      - apply Shape_mscale_l, HYs.
      - apply Shape_mscale_l, Shape_outer; exact Hpc. }
    assert (H3 : ent (@madd RArith (@madd RArith (@mscale RArith (1 - c1 - cmu) C)
        (@mscale_l RArith cmu Y)) (@mscale_l RArith c1 (@outer RArith pc pc))) i j =
        ent C i j * (1 - c1 - cmu) + cmu * ent Y i j + c1 * (nth i pc 0 * nth j pc 0)).
    { rewrite (ent_madd d d); [|apply Shape_madd; [apply Shape_mscale, HC|apply Shape_mscale_l, HYs]
        |apply Shape_mscale_l, Shape_outer; exact Hpc|exact Hi|exact Hj].
      rewrite (ent_madd d d); [|apply Shape_mscale, HC|apply Shape_mscale_l, HYs|exact Hi|exact Hj].
      rewrite (ent_mscale d d) by assumption. rewrite (ent_mscale_l d d) by assumption.
      rewrite (ent_mscale_l d d); [|apply Shape_outer; exact Hpc|exact Hi|exact Hj].
      rewrite (ent_outer d) by assumption. reflexivity. }
    rewrite <- HY. unfold memory. destruct cond.
    - match type of H3 with ent ?m _ _ = _ => set (M3 := m : list (list R)) in * end.
      assert (Hli : (i < @length (list R) M3)%nat) by (destruct H3s as [-> _]; exact Hi).
      assert (Hlj : (j < @length R (nth i M3 []))%nat) by (rewrite (Shape_row _ _ _ _ H3s Hi); exact Hj).
      transitivity (nth j (map (fun x => x + 0) (nth i M3 [])) 0).
      { exact (f_equal (fun r => nth j r 0) (nth_map_row (map (fun x => x + 0)) M3 i [] Hli)). }
      rewrite (nth_map_R (fun x => x + 0) (nth i M3 []) j 0 Hlj). unfold ent in H3 at 1.
      rewrite Rplus_0_r. rewrite H3. lra.
    - rewrite (ent_madd d d); [|exact H3s|apply Shape_mscale_l, HC|exact Hi|exact Hj].
      etransitivity; [exact (f_equal (fun z => z + _) H3)|].
      rewrite (ent_mscale_l d d) by assumption.
      rnum. change (@nmul RArith) with Rmult. lra.
  Qed.

  (** v' C' v = memory v' C v + cmu sum_k w_k (y_k . v)^2 + c1 (pc . v)^2 *)
  Lemma cov_qf v :
    qf d (@cov_update RArith d c1 cc cmu w y pc cond C) v =
    memory * qf d C v
    + cmu * sumn (fun k => nth k w 0 * (sumn (fun i => v i * ent y k i) d * sumn (fun i => v i * ent y k i) d)) (length w)
    + c1 * (sumn (fun i => v i * nth i pc 0) d * sumn (fun i => v i * nth i pc 0) d).
  Proof.
    unfold qf.
    rewrite (sumn_ext _ (fun i =>
       memory * sumn (fun j => v i * ent C i j * v j) d
       + cmu * sumn (fun k => nth k w 0 * sumn (fun j => (v i * ent y k i) * (v j * ent y k j)) d) (length w)
       + c1 * sumn (fun j => (v i * nth i pc 0) * (v j * nth j pc 0)) d)).
    - rewrite !sumn_add, !sumn_scal. f_equal; [f_equal|].
      + f_equal. rewrite sumn_swap. apply sumn_ext. intros k Hk. rewrite sumn_scal. f_equal.
        symmetry. apply sumn_prod.
      + f_equal. symmetry. apply sumn_prod.
    - intros i Hi.
      rewrite (sumn_ext (fun j => v i * ent _ i j * v j) (fun j =>
         memory * (v i * ent C i j * v j)
         + cmu * sumn (fun k => nth k w 0 * ((v i * ent y k i) * (v j * ent y k j))) (length w)
         + c1 * ((v i * nth i pc 0) * (v j * nth j pc 0)))).
      + rewrite !sumn_add, !sumn_scal. f_equal. f_equal. f_equal. rewrite sumn_swap.
        apply sumn_ext. intros k Hk. rewrite sumn_scal. reflexivity.
      + intros j Hj. rewrite cov_entry by assumption.
        rewrite (sumn_ext (fun k => nth k w 0 * (v i * ent y k i * (v j * ent y k j)))
                          (fun k => (v i * v j) * (nth k w 0 * (ent y k i * ent y k j)))) by (intros; lra).
        rewrite (sumn_scal (v i * v j)). lra.
  Qed.
End Update.

(** C28: one covariance update. *)
Theorem C28_update d (c1 cc cmu : R) (w : list R) (y : list (list R)) (pc : list R) cond C :
  Shape d d C -> Shape (length w) d y -> length pc = d ->
  0 <= c1 -> 0 <= cmu -> c1 + cmu <= 1 -> 0 <= cc <= 2 -> Forall (fun x => 0 <= x) w ->
  let C' := @cov_update RArith d c1 cc cmu w y pc cond C in
  Shape d d C' /\
  (Symmetric d C -> Symmetric d C') /\
  (PosSemi d C -> PosSemi d C') /\
  (c1 + cmu < 1 -> PosDef d C -> PosDef d C').
Proof.
  intros HC Hy Hpc H1 H2 H3 H4 Hw C'.
  assert (Hr : forall v, 0 <= cmu * sumn (fun k => nth k w 0 *
     (sumn (fun i => v i * ent y k i) d * sumn (fun i => v i * ent y k i) d)) (length w)
     + c1 * (sumn (fun i => v i * nth i pc 0) d * sumn (fun i => v i * nth i pc 0) d)).
  { intros v.
    assert (Hs : forall a : R, 0 <= a * a) by (intros a; exact (Rle_0_sqr a)).
    apply Rplus_le_le_0_compat; [apply Rmult_le_pos; [exact H2|]|apply Rmult_le_pos; [exact H1|apply Hs]].
    apply sumn_nonneg. intros k Hk. apply Rmult_le_pos; [|apply Hs].
    rewrite Forall_forall in Hw. apply Hw, nth_In, Hk. }
  assert (Hm : 1 - c1 - cmu <= memory c1 cc cmu cond).
  { unfold memory. destruct cond; [lra|].
    assert (0 <= c1 * cc * (2 - cc)) by (apply Rmult_le_pos; [apply Rmult_le_pos|]; lra). lra. }
  split; [apply cov_shape; assumption|]. split; [|split].
  - intros Hsy i j Hi Hj. unfold C'. rewrite !cov_entry by assumption. rewrite (Hsy i j Hi Hj).
    f_equal; [f_equal; f_equal|lra]. apply sumn_ext. intros; lra.
  - intros Hp v. unfold C'. rewrite cov_qf by assumption. pose proof (Hp v) as Hv. specialize (Hr v).
    assert (0 <= memory c1 cc cmu cond * qf d C v) by (apply Rmult_le_pos; lra). lra.
  - intros Hlt Hp v Hv. unfold C'. rewrite cov_qf by assumption. pose proof (Hp v Hv) as Hq. specialize (Hr v).
    assert (0 < memory c1 cc cmu cond * qf d C v) by (apply Rmult_lt_0_compat; lra). lra.
Qed.

(** The symmetrisation before the eigendecomposition (cmaes/_cmaes.py:304) changes nothing. *)
Theorem C28_symm d C : Shape d d C -> Symmetric d C -> @symm RArith d C = C.
Proof.
  intros HC Hs. unfold symm. destruct (Shape_mtab d d (fun i j => if (i <=? j)%nat then @mget RArith C i j + 0 else 0 + @mget RArith C j i)) as [H1 H2].
  apply (list_ext []); [etransitivity; [exact H1|symmetry; apply HC]|].
  intros i Hi. assert (Hi' : (i < d)%nat) by (rewrite <- H1; exact Hi).
  rewrite Forall_forall in H2.
  assert (Hlr : length (nth i C []) = d) by (apply (Shape_row d); assumption).
  match goal with |- nth i ?m [] = _ => set (mm := m) in * end.
  assert (Hlm : length (nth i mm []) = d) by (apply H2, nth_In; exact Hi).
  apply (list_ext (A := R) 0); [exact (eq_trans Hlm (eq_sym Hlr))|]. intros j Hj.
  assert (Hj' : (j < d)%nat) by (rewrite <- Hlm; exact Hj).
  change (ent mm i j = ent C i j). unfold mm. rewrite ent_mtab by assumption.
  change (@mget RArith) with ent.
  destruct (i <=? j)%nat; [etransitivity; [apply Rplus_0_r|reflexivity]|].
  etransitivity; [apply Rplus_0_l|]. apply Hs; assumption.
Qed.

(** The identity, with which the run starts, is symmetric positive definite. *)
Theorem C28_start d : Shape d d (@eye RArith d) /\ Symmetric d (@eye RArith d) /\ PosDef d (@eye RArith d).
Proof.
  assert (He : forall i j, (i < d)%nat -> (j < d)%nat -> ent (@eye RArith d) i j = if (i =? j)%nat then 1 else 0).
  { intros i j Hi Hj. unfold eye. rewrite ent_mtab by assumption. reflexivity. }
  split; [apply Shape_mtab|]. split.
  - intros i j Hi Hj. rewrite !He by assumption. rewrite Nat.eqb_sym. reflexivity.
  - intros v (i0 & Hi0 & Hv0). unfold qf.
    rewrite (sumn_ext _ (fun i => v i * v i)).
    + assert (Hnn : forall n, (n <= d)%nat -> 0 <= sumn (fun i => v i * v i) n /\
          ((i0 < n)%nat -> 0 < sumn (fun i => v i * v i) n)).
      { induction n as [|n IH]; intros Hn; cbn; [split; [lra|lia]|].
        pose proof (Rle_0_sqr (v n)) as Hs. unfold Rsqr in Hs.
        destruct IH as [IH1 IH2]; [lia|]. split; [lra|]. intros Hi.
        destruct (Nat.eq_dec i0 n) as [<-|Hne]; [|assert (0 < sumn (fun i => v i * v i) n) by (apply IH2; lia); lra].
        assert (0 < v i0 * v i0) by nra. lra. }
      apply Hnn; [lia|exact Hi0].
    + intros i Hi. rewrite (sumn_ext _ (fun j => if (j =? i)%nat then v i * v j else 0)).
      * apply (sumn_delta (fun j => v i * v j)). exact Hi.
      * intros j Hj. rewrite He by assumption. rewrite Nat.eqb_sym. destruct (j =? i)%nat; lra.
Qed.

(** The diagonal of a positive definite matrix is positive (its square roots are taken in the
    convergence test, cmaes/_cmaes.py:399). *)
Theorem C28_diagonal d C i : PosDef d C -> (i < d)%nat -> 0 < ent C i i.
Proof.
  intros Hp Hi. pose (v := fun j => if (j =? i)%nat then 1 else 0).
  assert (H : 0 < qf d C v).
  { apply Hp. exists i. split; [exact Hi|]. unfold v. rewrite Nat.eqb_refl. lra. }
  unfold qf in H. rewrite (sumn_ext _ (fun k => if (k =? i)%nat then ent C k i else 0)) in H.
  - rewrite (sumn_delta (fun k => ent C k i)) in H by exact Hi. exact H.
  - intros k Hk. rewrite (sumn_ext _ (fun j => if (j =? i)%nat then v k * ent C k j else 0)).
    + rewrite (sumn_delta (fun j => v k * ent C k j)) by exact Hi. unfold v. destruct (k =? i)%nat; lra.
    + intros j Hj. unfold v. destruct (j =? i)%nat; lra.
Qed.

(** Any sequence of updates with the solver's own rates. *)
Inductive Updates (d mu : nat) : list (list R) -> Prop :=
| Up_start : Updates d mu (@eye RArith d)
| Up_step C y (pc : list R) cond :
    Updates d mu C -> Shape mu d y -> length pc = d ->
    Updates d mu (let m := @cma_mueff RArith (@cma_weights RArith mu) in let n := @nN RArith d in
      @cov_update RArith d (@cma_c1 RArith n m) (@cma_cc RArith n m) (@cma_cmu RArith n m)
                  (@cma_weights RArith mu) y pc cond C).

Theorem C28_every_generation d mu C : (1 <= d)%nat -> (1 <= mu)%nat -> Updates d mu C ->
  let m := @cma_mueff RArith (@cma_weights RArith mu) in
  let n := @nN RArith d in
  Shape d d C /\ Symmetric d C /\ PosSemi d C /\
  (@cma_c1 RArith n m + @cma_cmu RArith n m < 1 -> PosDef d C).
Proof.
  intros Hd Hmu HU m n. destruct (C27_cma d mu Hd Hmu) as (Hcc & _ & Hc1 & Hcmu & Hsum & _).
  fold m n in Hcc, Hc1, Hcmu, Hsum. destruct (C27_weights mu Hmu) as (Hl & Hp & _ & _). cbn zeta in *.
  induction HU as [|C y pc cond HU IH Hy Hpc].
  - destruct (C28_start d) as (H1 & H2 & H3). split; [exact H1|]. split; [exact H2|]. split; [|intros; exact H3].
    intros v. destruct (Classical_Prop.classic (exists i, (i < d)%nat /\ v i <> 0)) as [Hv|Hv]; [left; apply H3, Hv|].
    right. unfold qf. symmetry. rewrite <- (sumn_0 d). apply sumn_ext. intros i Hi.
    etransitivity; [|apply (sumn_0 d)]. apply sumn_ext. intros j Hj. destruct (Req_dec (v i) 0) as [->|He]; [lra|]. exfalso. apply Hv. exists i; auto.
  - destruct IH as (I1 & I2 & I3 & I4).
    destruct (C28_update d (@cma_c1 RArith n m) (@cma_cc RArith n m) (@cma_cmu RArith n m)
      (@cma_weights RArith mu) y pc cond C I1) as (J1 & J2 & J3 & J4); try lra.
    + change (@length R (@cma_weights RArith mu) = mu) in Hl. rewrite Hl. exact Hy.
    + exact Hpc.
    + eapply Forall_impl; [|exact Hp]. cbn. intros; lra.
    + split; [exact J1|]. split; [apply J2, I2|]. split; [apply J3, I3|]. intros H. apply J4; [exact H|apply I4, H].
Qed.

(** Example: one update in dimension 2 with two parents. *)
Theorem C28_example : Updates 2 2 (let m := @cma_mueff RArith (@cma_weights RArith 2) in let n := @nN RArith 2 in
      @cov_update RArith 2 (@cma_c1 RArith n m) (@cma_cc RArith n m) (@cma_cmu RArith n m)
                  (@cma_weights RArith 2) [[1; 2]; [3; -1]] [1; 1] true (@eye RArith 2)).
Proof.
  apply Up_step; [apply Up_start| |reflexivity]. split; [reflexivity|]. repeat constructor.
Qed.
