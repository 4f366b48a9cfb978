(** C40, continued: how far hmc's numerical gradient is from the gradient (exact arithmetic). *)
From Coq Require Import Reals Lra.
From Verif Require Import Base Num NumR NumE Env Common Sample Hoare HmcReal.
Open Scope R_scope.

Lemma cdiff_nth f h x k : (k < length x)%nat ->
  nth k (cdiff f h x) 0 = (f (upd k (nth k x 0 + h) x) - f (upd k (nth k x 0 - h) x)) / (2 * h).
Proof. intro Hk. unfold cdiff. rewrite nth_map_seq_R by exact Hk. reflexivity. Qed.

(** Every component is the exact partial derivative at a point of the coordinate line less than
    [h] away. *)
Theorem C40_mean_value f d h x k : 0 < h -> (k < length x)%nat ->
  (forall t, Rabs (t - nth k x 0) <= h -> derivable_pt_lim (fun t => f (upd k t x)) t (d t)) ->
  exists t, Rabs (t - nth k x 0) < h /\ nth k (cdiff f h x) 0 = d t.
Proof.
  intros Hh Hk Hd. set (a := nth k x 0) in *.
  destruct (MVT_cor2 (fun t => f (upd k t x)) d (a - h) (a + h)) as (c & Hc & Hi); [lra| |].
  - intros c Hc. apply Hd. apply Rabs_le. lra.
  - exists c. split; [apply Rabs_def1; lra|]. rewrite cdiff_nth by exact Hk. fold a. rewrite Hc. field. lra.
Qed.
(** If the partial derivative is K-Lipschitz the component is off by K h at most. *)
Theorem C40_error_lipschitz f d K h x k : 0 < h -> (k < length x)%nat ->
  (forall t, Rabs (t - nth k x 0) <= h -> derivable_pt_lim (fun t => f (upd k t x)) t (d t)) ->
  (forall t, Rabs (t - nth k x 0) <= h -> Rabs (d t - d (nth k x 0)) <= K * Rabs (t - nth k x 0)) ->
  0 <= K -> Rabs (nth k (cdiff f h x) 0 - d (nth k x 0)) <= K * h.
Proof.
  intros Hh Hk Hd HK HK0. destruct (C40_mean_value f d h x k Hh Hk Hd) as (t & Ht & ->).
  eapply Rle_trans; [apply HK; lra|]. apply Rmult_le_compat_l; lra.
Qed.

Lemma decr (u u' : R -> R) h : 0 < h ->
  (forall t, 0 <= t <= h -> derivable_pt_lim u t (u' t)) -> (forall t, 0 <= t <= h -> u' t <= 0) -> u h <= u 0.
Proof.
  intros Hh Hd Hn. destruct (MVT_cor2 u u' 0 h Hh Hd) as (c & Hc & Hi).
  assert (H : u' c * (h - 0) <= 0) by (specialize (Hn c); nra). lra.
Qed.

(** derivatives of the functions in the proof *)
Lemma der_shift (g g' : R -> R) a t : derivable_pt_lim g (a + t) (g' (a + t)) -> derivable_pt_lim (fun t => g (a + t)) t (g' (a + t)).
Proof.
  intro H. replace (g' (a + t)) with (g' (a + t) * (0 + 1)) by ring.
  apply (derivable_pt_lim_comp (fun t => a + t) g); [|exact H].
  apply (derivable_pt_lim_plus (fun _ => a) (fun t => t)); [apply derivable_pt_lim_const|apply derivable_pt_lim_id].
Qed.
Lemma der_flip (g g' : R -> R) a t : derivable_pt_lim g (a - t) (g' (a - t)) -> derivable_pt_lim (fun t => g (a - t)) t (- g' (a - t)).
Proof.
  intro H. replace (- g' (a - t)) with (g' (a - t) * (0 - 1)) by ring.
  apply (derivable_pt_lim_comp (fun t => a - t) g); [|exact H].
  apply (derivable_pt_lim_minus (fun _ => a) (fun t => t)); [apply derivable_pt_lim_const|apply derivable_pt_lim_id].
Qed.
Lemma der_lin c t : derivable_pt_lim (fun t => c * t) t c.
Proof.
  apply (eq_ind (0 * t + c * 1) (fun z => derivable_pt_lim (fun t => c * t) t z)); [|ring].
  apply (derivable_pt_lim_mult (fun _ => c) (fun t => t)); [apply derivable_pt_lim_const|apply derivable_pt_lim_id].
Qed.
Lemma der_sq c t : derivable_pt_lim (fun t => c * t * t) t (2 * c * t).
Proof.
  replace (2 * c * t) with (c * t + c * t * 1) by ring.
  apply (derivable_pt_lim_mult (fun t => c * t) (fun t => t)); [apply der_lin|apply derivable_pt_lim_id].
Qed.
Lemma der_cube c t : derivable_pt_lim (fun t => c * t * t * t) t (3 * c * t * t).
Proof.
  replace (3 * c * t * t) with (2 * c * t * t + c * t * t * 1) by ring.
  apply (derivable_pt_lim_mult (fun t => c * t * t) (fun t => t)); [apply der_sq|apply derivable_pt_lim_id].
Qed.

Section Second.
  Variables (g d e : R -> R) (a h L : R).
  Hypothesis Hh : 0 < h.
  Hypothesis Hd : forall t, Rabs (t - a) <= h -> derivable_pt_lim g t (d t).
  Hypothesis He : forall t, Rabs (t - a) <= h -> derivable_pt_lim d t (e t).
  Hypothesis HL : forall s t, Rabs (s - a) <= h -> Rabs (t - a) <= h -> Rabs (e s - e t) <= L * Rabs (s - t).

  Lemma near t : 0 <= t <= h -> Rabs (a + t - a) <= h /\ Rabs (a - t - a) <= h.
  Proof. intro H. split; apply Rabs_le; lra. Qed.
  Lemma pinch t : 0 <= t <= h -> - (2 * L * t) <= e (a + t) - e (a - t) <= 2 * L * t.
  Proof.
    intro H. destruct (near t H) as [H1 H2]. pose proof (HL _ _ H1 H2) as H3.
    replace (a + t - (a - t)) with (2 * t) in H3 by ring. rewrite (Rabs_right (2 * t)) in H3 by lra.
    pose proof (Rle_abs (e (a + t) - e (a - t))). pose proof (Rle_abs (- (e (a + t) - e (a - t)))).
    rewrite Rabs_Ropp in H4. lra.
  Qed.
  (** first the derivative, then the function *)
  Lemma psi_der sg c t : 0 <= t <= h ->
    derivable_pt_lim (fun t => sg * (d (a + t) + d (a - t)) - c * t * t) t (sg * (e (a + t) - e (a - t)) - 2 * c * t).
  Proof.
    intro H. destruct (near t H) as [H1 H2].
    apply (derivable_pt_lim_minus (fun t => sg * (d (a + t) + d (a - t))) (fun t => c * t * t)); [|apply der_sq].
    replace (sg * (e (a + t) - e (a - t))) with (0 * (d (a + t) + d (a - t)) + sg * (e (a + t) + - e (a - t))) by ring.
    apply (derivable_pt_lim_mult (fun _ => sg) (fun t => d (a + t) + d (a - t))); [apply derivable_pt_lim_const|].
    apply (derivable_pt_lim_plus (fun t => d (a + t)) (fun t => d (a - t)));
      [apply der_shift, He, H1|apply der_flip, He, H2].
  Qed.
  Lemma psi_le sg t : sg = 1 \/ sg = -1 -> 0 <= t <= h -> sg * (d (a + t) + d (a - t)) - L * t * t <= sg * (2 * d a).
  Proof.
    intros Hs H. destruct (Req_dec t 0) as [->|Ht].
    - rewrite Rplus_0_r, Rminus_0_r. lra.
    - replace (sg * (2 * d a)) with (sg * (d (a + 0) + d (a - 0)) - L * 0 * 0) by (rewrite Rplus_0_r, Rminus_0_r; ring).
      apply (decr (fun t => sg * (d (a + t) + d (a - t)) - L * t * t)
                  (fun t => sg * (e (a + t) - e (a - t)) - 2 * L * t)); [lra| |].
      + intros u Hu. apply psi_der. lra.
      + intros u Hu. pose proof (pinch u). destruct Hs; subst sg; lra.
  Qed.
  Lemma phi_der sg c t : 0 <= t <= h ->
    derivable_pt_lim (fun t => sg * (g (a + t) - g (a - t)) - sg * (2 * d a) * t - c * t * t * t) t
      (sg * (d (a + t) + d (a - t)) - sg * (2 * d a) - 3 * c * t * t).
  Proof.
    intro H. destruct (near t H) as [H1 H2].
    apply (derivable_pt_lim_minus (fun t => sg * (g (a + t) - g (a - t)) - sg * (2 * d a) * t) (fun t => c * t * t * t)); [|apply der_cube].
    apply (derivable_pt_lim_minus (fun t => sg * (g (a + t) - g (a - t))) (fun t => sg * (2 * d a) * t)); [|apply der_lin].
    replace (sg * (d (a + t) + d (a - t))) with (0 * (g (a + t) - g (a - t)) + sg * (d (a + t) - - d (a - t))) by ring.
    apply (derivable_pt_lim_mult (fun _ => sg) (fun t => g (a + t) - g (a - t))); [apply derivable_pt_lim_const|].
    apply (derivable_pt_lim_minus (fun t => g (a + t)) (fun t => g (a - t)));
      [apply der_shift, Hd, H1|apply der_flip, Hd, H2].
  Qed.
  Lemma phi_le sg : sg = 1 \/ sg = -1 -> sg * (g (a + h) - g (a - h)) - sg * (2 * d a) * h <= L / 3 * h * h * h.
  Proof.
    intro Hs.
    pose proof (decr (fun t => sg * (g (a + t) - g (a - t)) - sg * (2 * d a) * t - L / 3 * t * t * t)
                     (fun t => sg * (d (a + t) + d (a - t)) - sg * (2 * d a) - 3 * (L / 3) * t * t) h Hh) as H.
    cbv beta in H. rewrite Rplus_0_r, Rminus_0_r in H.
    assert (H' : sg * (g (a + h) - g (a - h)) - sg * (2 * d a) * h - L / 3 * h * h * h
                 <= sg * (g a - g a) - sg * (2 * d a) * 0 - L / 3 * 0 * 0 * 0).
    { apply H; [intros; apply phi_der; assumption|]. intros t Ht. pose proof (psi_le sg t Hs Ht). lra. }
    lra.
  Qed.
  Lemma second : Rabs ((g (a + h) - g (a - h)) / (2 * h) - d a) <= L * h * h / 6.
  Proof.
    pose proof (phi_le 1 (or_introl eq_refl)) as H1. pose proof (phi_le (-1) (or_intror eq_refl)) as H2.
    assert (Hq : forall y, y = (g (a + h) - g (a - h)) / (2 * h) - d a -> y * (2 * h) = g (a + h) - g (a - h) - 2 * d a * h).
    { intros y ->. field. lra. }
    set (y := _ - d a). specialize (Hq y eq_refl). apply Rabs_le. split.
    - apply (Rmult_le_reg_r (2 * h)); [lra|]. lra.
    - apply (Rmult_le_reg_r (2 * h)); [lra|]. lra.
  Qed.
End Second.

(** If the second derivative along the coordinate is L-Lipschitz the component is off by L h^2 / 6
    at most. *)
Theorem C40_error_second f d e L h x k : 0 < h -> (k < length x)%nat ->
  (forall t, Rabs (t - nth k x 0) <= h -> derivable_pt_lim (fun t => f (upd k t x)) t (d t)) ->
  (forall t, Rabs (t - nth k x 0) <= h -> derivable_pt_lim d t (e t)) ->
  (forall s t, Rabs (s - nth k x 0) <= h -> Rabs (t - nth k x 0) <= h -> Rabs (e s - e t) <= L * Rabs (s - t)) ->
  Rabs (nth k (cdiff f h x) 0 - d (nth k x 0)) <= L * h * h / 6.
Proof.
  intros Hh Hk Hd He HL. rewrite cdiff_nth by exact Hk.
  apply (second (fun t => f (upd k t x)) d e (nth k x 0) h L); assumption.
Qed.

(** The bound is attained: the cube of a coordinate, where L = 6. *)
Definition cube1 (x : list R) : R := nth 0 x 0 * nth 0 x 0 * nth 0 x 0.
Theorem C40_error_attained a h : 0 < h ->
  let d t := 3 * t * t in let e t := 6 * t in
  (forall t, derivable_pt_lim (fun t => cube1 (upd 0 t [a])) t (d t)) /\
  (forall t, derivable_pt_lim d t (e t)) /\
  (forall s t, Rabs (e s - e t) <= 6 * Rabs (s - t)) /\
  nth 0 (cdiff cube1 h [a]) 0 - d a = 6 * h * h / 6.
Proof.
  intros Hh d e. split; [|split; [|split]].
  - intro t. cbn. replace (d t) with (3 * 1 * t * t) by (unfold d; ring).
    intros eps Heps. destruct (der_cube 1 t eps Heps) as [delta Hdel]. exists delta. intros u Hu1 Hu2.
    specialize (Hdel u Hu1 Hu2). unfold cube1. cbn. rewrite !Rmult_1_l in Hdel. exact Hdel.
  - intro t. unfold d, e. replace (6 * t) with (2 * 3 * t) by ring. apply der_sq.
  - intros s t. unfold e. replace (6 * s - 6 * t) with (6 * (s - t)) by ring. rewrite Rabs_mult, (Rabs_right 6) by lra. lra.
  - rewrite cdiff_nth by (cbn; lia). unfold cube1, d. cbn [nth upd]. field. lra.
Qed.

(** What a call of numerical_gradient returns, for an objective with values [f]: within [L h^2 / 6] of
    the gradient in every component, and the evaluations of [C40_central]. *)
Theorem C40_accuracy {E : Env ENum} f d e L h nf x s :
  (forall x w, exists w', e_fun (map Fin x) w = (inl (Fin (f x)), w')) -> 0 < h ->
  (forall k t, (k < length x)%nat -> Rabs (t - nth k x 0) <= h ->
     derivable_pt_lim (fun t => f (upd k t x)) t (d k t) /\ derivable_pt_lim (d k) t (e k t)) ->
  (forall k s t, (k < length x)%nat -> Rabs (s - nth k x 0) <= h -> Rabs (t - nth k x 0) <= h ->
     Rabs (e k s - e k t) <= L * Rabs (s - t)) ->
  exists gr s', numerical_gradient (Fin h) nf (map Fin x) s =
      (inl (map Fin gr, (nf + 2 * Z.of_nat (length x))%Z), s') /\ length gr = length x /\
    forall k, (k < length x)%nat -> Rabs (nth k gr 0 - d k (nth k x 0)) <= L * h * h / 6.
Proof.
  intros Hf Hh Hd HL. destruct (C40_central f Hf h nf x s ltac:(lra)) as (s' & H1 & _).
  exists (cdiff f h x), s'. split; [exact H1|]. split; [unfold cdiff; rewrite map_length, seq_length; reflexivity|].
  intros k Hk. apply (C40_error_second f (d k) (e k) L h x k Hh Hk).
  - intros t Ht. apply (Hd k t Hk Ht).
  - intros t Ht. apply (Hd k t Hk Ht).
  - intros. apply HL; assumption.
Qed.
