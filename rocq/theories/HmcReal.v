(** C39, C40: leap-frog integration and numerical gradient in exact arithmetic. *)
From Coq Require Import Reals Lra Floats.
From Verif Require Import Base Num NumR NumE NumF Env Common DE Sample Hoare EvalRules Demo.
Open Scope R_scope.

(** ** Specification over the reals *)

(** Central differences, component by component. *)
Definition cdiff (f : list R -> R) (h : R) (x : list R) : list R :=
  map (fun k => (f (upd k (nth k x 0 + h) x) - f (upd k (nth k x 0 - h) x)) / (2 * h))
      (seq 0 (length x)).

(** One leap-frog trajectory with gradient [G]: half kick, drift, [n] times (kick, drift),
    half kick; written on coordinates. *)
Definition axpy (c : R) (s v p : list R) : list R :=   (* p + c * s * v *)
  map (fun k => nth k p 0 + c * (nth k s 0 * nth k v 0)) (seq 0 (length p)).
Fixpoint steps_real (G : list R -> list R) (s : list R) (n : nat) (q p : list R)
  : list R * list R :=
  match n with
  | O => (q, p)
  | S m => let p1 := axpy (-1) s (G q) p in steps_real G s m (axpy 1 s p1 q) p1
  end.
Definition leap_real (G : list R -> list R) (s : list R) (n : nat) (q p : list R)
  : list R * list R :=
  let p1 := axpy (-1/2) s (G q) p in
  let '(q2, p2) := steps_real G s n (axpy 1 s p1 q) p1 in
  (q2, axpy (-1/2) s (G q2) p2).

Lemma axpy_length c s v p : length (axpy c s v p) = length p.
Proof. unfold axpy. rewrite map_length, seq_length. reflexivity. Qed.
Lemma nth_map_seq_R (f : nat -> R) n j : (j < n)%nat -> nth j (map f (seq 0 n)) 0 = f j.
Proof.
  intros H. rewrite (nth_indep _ 0 (f O)) by (rewrite map_length, seq_length; lia).
  rewrite map_nth, seq_nth by lia. reflexivity.
Qed.
Lemma axpy_nth c s v p k : (k < length p)%nat ->
  nth k (axpy c s v p) 0 = nth k p 0 + c * (nth k s 0 * nth k v 0).
Proof. intros H. unfold axpy. rewrite nth_map_seq_R by auto. reflexivity. Qed.
Lemma opp_nth p k : nth k (map Ropp p) 0 = - nth k p 0.
Proof. rewrite <- (map_nth Ropp p 0 k). rewrite Ropp_0. reflexivity. Qed.

Ltac vlen := rewrite ?axpy_length, ?map_length, ?axpy_length, ?map_length in *; congruence || lia.
Ltac vext := apply (list_ext 0);
  [ vlen
  | intros k Hk; repeat first [rewrite opp_nth | rewrite axpy_nth by vlen]; lra ].

(** ** Reversibility, any gradient *)
Section Reverse.
  Variables (G : list R -> list R) (s : list R).

  (** undo a drift and reverse the momentum *)
  Definition D (z : list R * list R) : list R * list R :=
    (axpy (-1) s (snd z) (fst z), map Ropp (snd z)).

  Lemma steps_snoc n q p : steps_real G s (S n) q p =
    (let '(q2, p2) := steps_real G s n q p in
     let p3 := axpy (-1) s (G q2) p2 in (axpy 1 s p3 q2, p3)).
  Proof.
    revert q p. induction n as [|n IH]; intros q p; [reflexivity|].
    change (steps_real G s (S (S n)) q p) with
      (steps_real G s (S n) (axpy 1 s (axpy (-1) s (G q) p) q) (axpy (-1) s (G q) p)).
    rewrite IH. reflexivity.
  Qed.
  Lemma steps_length n q p : length p = length q ->
    length (fst (steps_real G s n q p)) = length q /\ length (snd (steps_real G s n q p)) = length q.
  Proof.
    revert q p. induction n as [|n IH]; intros q p H; cbn [steps_real]; auto.
    destruct (IH (axpy 1 s (axpy (-1) s (G q) p) q) (axpy (-1) s (G q) p)) as [H1 H2];
      rewrite !axpy_length in *; auto.
  Qed.

  Lemma steps_reverse n q p q2 p2 : length p = length q -> steps_real G s n q p = (q2, p2) ->
    steps_real G s n (axpy (-1) s p2 q2) (map Ropp p2) = (axpy (-1) s p q, map Ropp p).
  Proof.
    revert q p q2 p2. induction n as [|n IH]; intros q p q2 p2 Hl H.
    - injection H as <- <-. reflexivity.
    - rewrite steps_snoc in H. pose proof (steps_length n q p Hl) as [H1 H2].
      destruct (steps_real G s n q p) as [q1 p1] eqn:H1'. cbn [fst snd] in *. cbn zeta in H.
      specialize (IH q p q1 p1 Hl H1').
      injection H as <- <-. cbn [steps_real].
      replace (axpy (-1) s (axpy (-1) s (G q1) p1) (axpy 1 s (axpy (-1) s (G q1) p1) q1)) with q1.
      2:{ vext. }
      replace (axpy (-1) s (G q1) (map Ropp (axpy (-1) s (G q1) p1))) with (map Ropp p1) by vext.
      replace (axpy 1 s (map Ropp p1) q1) with (axpy (-1) s p1 q1) by vext.
      exact IH.
  Qed.

  Theorem C39_reversible_any_gradient n q p q2 p2 : length p = length q ->
    leap_real G s n q p = (q2, p2) ->
    leap_real G s n q2 (map Ropp p2) = (q, map Ropp p).
  Proof.
    intros Hl H. unfold leap_real in *. cbn zeta in *.
    set (p1 := axpy (-1/2) s (G q) p) in *.
    assert (Hl1 : length p1 = length (axpy 1 s p1 q)) by (unfold p1; rewrite !axpy_length; auto).
    pose proof (steps_length n _ _ Hl1) as [H1 H2].
    destruct (steps_real G s n (axpy 1 s p1 q) p1) as [q3 p3] eqn:Hs.
    injection H as <- <-. cbn [fst snd] in *.
    replace (axpy (-1/2) s (G q3) (map Ropp (axpy (-1/2) s (G q3) p3))) with (map Ropp p3) by vext.
    replace (axpy 1 s (map Ropp p3) q3) with (axpy (-1) s p3 q3).
    2:{ vext. }
    rewrite (steps_reverse n _ _ _ _ Hl1 Hs).
    replace (axpy (-1) s p1 (axpy 1 s p1 q)) with q by vext.
    f_equal. unfold p1. vext.
  Qed.
End Reverse.

(** ** The code in exact arithmetic, on a pure objective with finite values *)
Section Pure.
  Context {E : Env ENum}.
  Variable f : list R -> R.
  Definition PureFin : Prop :=
    forall x w, exists w', @e_fun _ E (map Fin x) w = (inl (Fin (f x)), w').
  Hypothesis Hf : PureFin.

  Lemma call_pure x s : exists s',
    call_fun (map Fin x) s = (inl (Fin (f x)), s') /\
    tr s' = tr s ++ [EEval (map Fin x) (inl (Fin (f x)))].
  Proof.
    unfold call_fun. destruct (Hf x (rs s)) as [w' ->]. eexists; split; reflexivity.
  Qed.

  Lemma upd_map (i : nat) (a : R) x : upd i (Fin a) (map Fin x) = map Fin (upd i a x).
  Proof. revert i. induction x as [|b x IH]; intros [|i]; cbn; auto. rewrite IH. reflexivity. Qed.
  Lemma n0_fin : n0 = Fin 0. Proof. reflexivity. Qed.
  Lemma nth_fin i x : nth i (map Fin x) n0 = Fin (nth i x 0).
  Proof. rewrite n0_fin. apply map_nth. Qed.
  Lemma upd_upd {A} i (a b : A) l : upd i a (upd i b l) = upd i a l.
  Proof. revert i. induction l as [|c l IH]; intros [|i]; cbn; auto. rewrite IH. reflexivity. Qed.
  Lemma upd_self i x : upd i (nth i x 0) x = x.
  Proof. revert i. induction x as [|c x IH]; intros [|i]; cbn; auto. rewrite IH. reflexivity. Qed.

  (** the two evaluations of component k *)
  Definition ng_events (h : R) (x : list R) (k : nat) : list (@event EArith) :=
    let xp := upd k (nth k x 0 + h) x in let xm := upd k (nth k x 0 - h) x in
    [EEval (map Fin xp) (inl (Fin (f xp))); EEval (map Fin xm) (inl (Fin (f xm)))].

  Lemma ng_fold h x l : forall g nf s, (forall i, In i l -> (i < length x)%nat) -> exists s',
    foldM (ng_one (Fin h)) (map Fin x, map Fin x, map Fin g, nf) l s =
    (inl (map Fin x, map Fin x,
          map Fin (g ++ map (fun k => f (upd k (nth k x 0 + h) x) - f (upd k (nth k x 0 - h) x)) l),
          (nf + 2 * Z.of_nat (length l))%Z), s') /\
    tr s' = tr s ++ flat_map (ng_events h x) l.
  Proof.
    induction l as [|k l IH]; intros g nf s Hl.
    - exists s. cbn. rewrite !app_nil_r. split; auto. unfold ret. repeat f_equal. lia.
    - cbn [foldM]. unfold bind. unfold ng_one. cbv zeta. unfold bind, count_fun.
      rewrite !nth_fin. cbn [nadd nsub EArith num_arith ENum er_add er_sub]. rewrite !upd_map.
      destruct (call_pure (upd k (nth k x 0 + h) x) s) as (s1 & H1 & Ht1). unfold bind. rewrite H1.
      unfold ret at 1. cbn beta iota.
      destruct (call_pure (upd k (nth k x 0 - h) x) s1) as (s2 & H2 & Ht2). rewrite H2.
      unfold ret at 1. cbn beta iota. unfold ret at 1. cbn beta iota.
      rewrite !nth_fin. cbn [nadd nsub EArith num_arith ENum er_add er_sub]. rewrite !upd_map, !upd_upd.
      rewrite !upd_nth_same by (apply Hl; left; auto).
      replace (nth k x 0 - h + h) with (nth k x 0) by lra.
      replace (nth k x 0 + h - h) with (nth k x 0) by lra. rewrite upd_self.
      change (map Fin g ++ [Fin (f (upd k (nth k x 0 + h) x) - f (upd k (nth k x 0 - h) x))])
        with (map Fin g ++ map Fin [f (upd k (nth k x 0 + h) x) - f (upd k (nth k x 0 - h) x)]).
      rewrite <- map_app.
      destruct (IH (g ++ [f (upd k (nth k x 0 + h) x) - f (upd k (nth k x 0 - h) x)])
                   (nf + 1 + 1)%Z s2) as (s' & H3 & Ht3).
      { intros i Hi. apply Hl. right; auto. }
      exists s'. split.
      + etransitivity; [exact H3|]. rewrite <- app_assoc. cbn [map app].
        replace (nf + 1 + 1 + 2 * Z.of_nat (length l))%Z with (nf + 2 * Z.of_nat (length (k :: l)))%Z
          by (cbn [length]; lia).
        reflexivity.
      + rewrite Ht3, Ht2, Ht1, <- !app_assoc. reflexivity.
  Qed.

  (** ** C40: the numerical gradient is the vector of central differences, the objective is
      evaluated at x + h e_k and x - h e_k for each k, and nowhere else *)
  Theorem C40_central h nf x s : h <> 0 -> exists s',
    numerical_gradient (Fin h) nf (map Fin x) s =
      (inl (map Fin (cdiff f h x), (nf + 2 * Z.of_nat (length x))%Z), s') /\
    tr s' = tr s ++ flat_map (ng_events h x) (seq 0 (length x)).
  Proof.
    intros Hh. unfold numerical_gradient, bind.
    destruct (ng_fold h x (seq 0 (length x)) [] nf s) as (s' & H1 & H2).
    { intros i Hi. apply in_seq in Hi. lia. }
    cbn [map] in H1. rewrite map_length.
    match type of H1 with _ = ?r =>
      match goal with |- context [foldM ?g ?a ?l s] => replace (foldM g a l s) with r end end.
    cbn beta iota. exists s'. split; [|exact H2].
    unfold ret. cbn [app]. rewrite seq_length.
    f_equal. f_equal. f_equal. rewrite !map_map. unfold cdiff. rewrite map_map.
    apply map_ext. intros k. cbn. destruct (Req_EM_T h 0); [contradiction|].
    f_equal. unfold Rlit. cbn. field. exact Hh.
  Qed.

  (** ** the integrator computes [leap_real] *)
  Lemma map2_fin (op : er -> er -> er) (opR : R -> R -> R) u v :
    (forall a b, op (Fin a) (Fin b) = Fin (opR a b)) ->
    map2 op (map Fin u) (map Fin v) = map Fin (map2 opR u v).
  Proof.
    intros H. revert v. induction u as [|a u IH]; intros [|b v]; cbn; auto. rewrite H, IH. reflexivity.
  Qed.
  Lemma axpy_map2 c s v p : length s = length p -> length v = length p ->
    map2 Rplus p (map2 (fun a b => c * (a * b)) s v) = axpy c s v p.
  Proof.
    intros H1 H2. apply (list_ext 0).
    - rewrite axpy_length, !map2_length. lia.
    - rewrite !map2_length. intros i Hi.
      rewrite (map2_nth _ _ _ _ 0 0) by (rewrite ?map2_length; lia).
      rewrite (map2_nth _ _ _ _ 0 0) by lia. rewrite axpy_nth by lia. reflexivity.
  Qed.
  Lemma map2_ext' {A B C} (g1 g2 : A -> B -> C) u v : (forall a b, g1 a b = g2 a b) -> map2 g1 u v = map2 g2 u v.
  Proof. intros H. revert v. induction u as [|a u IH]; intros [|b v]; cbn; auto. rewrite H, IH. reflexivity. Qed.
  Lemma map2_minus c p s v : map2 Rminus p (map2 (fun a b => c * (a * b)) s v) =
    map2 Rplus p (map2 (fun a b => - c * (a * b)) s v).
  Proof.
    revert s v. induction p as [|a p IH]; intros [|b s] [|d v]; cbn; auto. rewrite IH. f_equal. lra.
  Qed.
  Lemma map2_c1 s v : map2 Rmult s v = map2 (fun a b => 1 * (a * b)) s v.
  Proof. apply map2_ext'. intros; lra. Qed.

  Lemma kick_fin s p g : length s = length p -> length g = length p ->
    kick (map Fin s) (map Fin p) (map Fin g) = map Fin (axpy (-1) s g p).
  Proof.
    intros H1 H2. unfold kick, vsub, vmul. cbn [nsub nmul num_arith ENum EArith].
    rewrite (map2_fin er_mul Rmult) by reflexivity. rewrite (map2_fin er_sub Rminus) by reflexivity.
    f_equal. rewrite map2_c1, map2_minus. apply axpy_map2; auto.
  Qed.
  Lemma drift_fin s q p : length s = length q -> length p = length q ->
    drift (map Fin s) (map Fin q) (map Fin p) = map Fin (axpy 1 s p q).
  Proof.
    intros H1 H2. unfold drift, vadd, vmul. cbn [nadd nmul num_arith ENum EArith].
    rewrite (map2_fin er_mul Rmult) by reflexivity. rewrite (map2_fin er_add Rplus) by reflexivity.
    f_equal. rewrite map2_c1. apply axpy_map2; auto.
  Qed.
  Lemma half_kick_fin s p g : length s = length p -> length g = length p ->
    half_kick (map Fin s) (map Fin p) (map Fin g) = map Fin (axpy (-1/2) s g p).
  Proof.
    intros H1 H2. unfold half_kick, vsub. cbn [nsub nmul nlit num_arith ENum EArith].
    rewrite (map2_fin _ (fun a b => 1/2 * (a * b))).
    2:{ intros a b. cbn. f_equal. unfold Rlit. cbn. lra. }
    rewrite (map2_fin er_sub Rminus) by reflexivity.
    f_equal. rewrite map2_minus. replace (- (1/2)) with (-1/2) by lra. apply axpy_map2; auto.
  Qed.
  Lemma cdiff_length h x : length (cdiff f h x) = length x.
  Proof. unfold cdiff. rewrite map_length, seq_length. reflexivity. Qed.

  Lemma leap_loop_fin h st n : h <> 0 -> forall q p nf s, length st = length q -> length p = length q ->
    exists nf' s',
    leap_loop (numerical_gradient (Fin h)) (map Fin st) n (map Fin q) (map Fin p) nf s =
    (inl (map Fin (fst (steps_real (cdiff f h) st n q p)),
          map Fin (snd (steps_real (cdiff f h) st n q p)), nf'), s').
  Proof.
    intros Hh. induction n as [|n IH]; intros q p nf s H1 H2.
    - exists nf, s. reflexivity.
    - cbn [leap_loop]. unfold bind. destruct (C40_central h nf q s Hh) as (s1 & E1 & _). rewrite E1.
      cbv beta iota zeta. cbn [steps_real].
      rewrite kick_fin by (rewrite ?cdiff_length; congruence).
      rewrite drift_fin by (rewrite ?axpy_length; congruence).
      apply IH; rewrite ?axpy_length; congruence.
  Qed.

  Lemma leapfrog_fin h st n q p nf s : h <> 0 -> length st = length q -> length p = length q ->
    exists nf' s',
    leapfrog (numerical_gradient (Fin h)) (map Fin st) n (map Fin q) (map Fin p) nf s =
    (inl (map Fin (fst (leap_real (cdiff f h) st n q p)),
          map Fin (snd (leap_real (cdiff f h) st n q p)), nf'), s').
  Proof.
    intros Hh H1 H2. unfold leapfrog, bind.
    destruct (C40_central h nf q s Hh) as (s1 & E1 & _). rewrite E1. cbv beta iota zeta.
    rewrite half_kick_fin by (rewrite ?cdiff_length; congruence).
    rewrite drift_fin by (rewrite ?axpy_length; congruence).
    unfold leap_real. cbv zeta. set (p1 := axpy (-1/2) st (cdiff f h q) p).
    assert (Hp1 : length p1 = length q) by (unfold p1; rewrite axpy_length; auto).
    destruct (leap_loop_fin h st n Hh (axpy 1 st p1 q) p1 (nf + 2 * Z.of_nat (length q))%Z s1)
      as (nf2 & s2 & E2); [rewrite axpy_length; auto..|].
    rewrite E2. cbv beta iota zeta.
    assert (Hsl : length p1 = length (axpy 1 st p1 q)) by (rewrite axpy_length; auto).
    pose proof (steps_length (cdiff f h) st n _ _ Hsl) as [H3 H4].
    destruct (steps_real (cdiff f h) st n (axpy 1 st p1 q) p1) as [q2 p2]. cbn [fst snd] in *.
    rewrite axpy_length in H3, H4.
    destruct (C40_central h nf2 q2 s2 Hh) as (s3 & E3 & _). rewrite E3. cbv beta iota zeta.
    rewrite half_kick_fin by (rewrite ?cdiff_length; congruence).
    eexists _, s3. reflexivity.
  Qed.

  Lemma leap_length G st n q p : length p = length q ->
    length (fst (leap_real G st n q p)) = length q /\ length (snd (leap_real G st n q p)) = length q.
  Proof.
    intros H. unfold leap_real. cbv zeta. set (p1 := axpy (-1/2) st (G q) p).
    assert (Hsl : length p1 = length (axpy 1 st p1 q)) by (unfold p1; rewrite !axpy_length; auto).
    pose proof (steps_length G st n _ _ Hsl) as [H3 H4].
    destruct (steps_real G st n _ p1) as [q2 p2]. cbn [fst snd] in *.
    rewrite axpy_length in *. auto.
  Qed.

  (** ** C39: integrating from the end point with reversed momentum leads back, whatever happened
      in between and however long the integration *)
  Theorem C39_reversible h st n q p nf s : h <> 0 -> length st = length q -> length p = length q ->
    exists q2 p2 nf2 s2,
      leapfrog (numerical_gradient (Fin h)) (map Fin st) n (map Fin q) (map Fin p) nf s =
        (inl (map Fin q2, map Fin p2, nf2), s2) /\
      forall nf' s', exists nf3 s3,
        leapfrog (numerical_gradient (Fin h)) (map Fin st) n (map Fin q2) (map Fin (map Ropp p2)) nf' s' =
          (inl (map Fin q, map Fin (map Ropp p), nf3), s3).
  Proof.
    intros Hh H1 H2. destruct (leapfrog_fin h st n q p nf s Hh H1 H2) as (nf2 & s2 & E2).
    destruct (leap_real (cdiff f h) st n q p) as [q2 p2] eqn:Hr. cbn [fst snd] in E2.
    exists q2, p2, nf2, s2. split; auto. intros nf' s'.
    pose proof (leap_length (cdiff f h) st n q p H2) as [H3 H4]. rewrite Hr in H3, H4. cbn in H3, H4.
    destruct (leapfrog_fin h st n q2 (map Ropp p2) nf' s' Hh) as (nf3 & s3 & E3);
      [congruence|rewrite map_length; congruence|].
    rewrite (C39_reversible_any_gradient _ _ _ _ _ _ _ H2 Hr) in E3. cbn [fst snd] in E3.
    exists nf3, s3. exact E3.
  Qed.
End Pure.

(** ** C40: exact on functions that are quadratic in each coordinate *)
Theorem C40_exact_quadratic f h x k :
  h <> 0 -> (k < length x)%nat ->
  (exists a b c, forall t, f (upd k t x) = a * t * t + b * t + c) ->
  derivable_pt_lim (fun t => f (upd k t x)) (nth k x 0) (nth k (cdiff f h x) 0).
Proof.
  intros Hh Hk (a & b & c & Hf).
  assert (Hv : nth k (cdiff f h x) 0 = 2 * a * nth k x 0 + b).
  { unfold cdiff. rewrite nth_map_seq_R by auto. rewrite !Hf. field. exact Hh. }
  rewrite Hv. set (x0 := nth k x 0).
  assert (Hd : derivable_pt_lim (fun t => a * t * t + b * t + c) x0 (2 * a * x0 + b)).
  { replace (2 * a * x0 + b) with (((0 * x0 + a * 1) * x0 + a * x0 * 1 + (0 * x0 + b * 1)) + 0) by lra.
    apply (derivable_pt_lim_plus (fun t => a * t * t + b * t) (fun _ => c)).
    - apply (derivable_pt_lim_plus (fun t => a * t * t) (fun t => b * t)).
      + apply (derivable_pt_lim_mult (fun t => a * t) (fun t => t)).
        * apply (derivable_pt_lim_mult (fun _ => a) (fun t => t)).
          -- apply derivable_pt_lim_const.
          -- apply derivable_pt_lim_id.
        * apply derivable_pt_lim_id.
      + apply (derivable_pt_lim_mult (fun _ => b) (fun t => t)).
        * apply derivable_pt_lim_const.
        * apply derivable_pt_lim_id.
    - apply derivable_pt_lim_const. }
  intros eps Heps. destruct (Hd eps Heps) as [delta Hdelta]. exists delta. intros u Hu1 Hu2.
  specialize (Hdelta u Hu1 Hu2). rewrite !Hf. exact Hdelta.
Qed.
