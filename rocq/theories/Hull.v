(** C73: the initial population limits the search of de, pso and cpso without competition (exact
    arithmetic): a coordinate in which all individuals agree never changes; de with an integer
    mutation factor stays on a grid, without mutation it only recombines, and with recombination 1
    it never leaves the affine hull of the initial population. *)
From Coq Require Import Reals Lra Psatz Permutation.
From Verif Require Import Base Num NumR NumE Env Common DE CPSO NA Hoare EvalRules Gen Steps Hist Runs Best
  Inst HistFacts HistBest PropPop Laws Safe Feas FeasPso CmaStop Trial Restart Explore Flight Replay Keeps.
Open Scope R_scope.

Local Notation evec := (list er).
Local Notation "v '@' j" := (@nth er j v (Fin 0)) (at level 9, no associativity).
Local Notation row X i := (@nth (list er) i X []).

(** ** Specification *)
(** All evaluated points of [l] have [c] as their [j]-th coordinate. *)
Definition Agree (j : nat) (c : R) (l : list (evec * er)) : Prop := Forall (fun e => (fst e)@j = Fin c) l.

(** The value of the linear form [a] at the finite point [x]. *)
Fixpoint form (a r : list R) : R :=
  match a, r with x :: a, y :: r => x * y + form a r | _, _ => 0 end.
(** [x] is on the hyperplane a . x = b. *)
Definition OnPlane (d : nat) (a : list R) (b : R) (x : evec) : Prop :=
  exists r, length r = d /\ x = map Fin r /\ form a r = b.

(** ** Vectors *)
Lemma fin_at (r : list R) j : (map Fin r)@j = Fin (nth j r 0).
Proof. apply (map_nth Fin). Qed.
Lemma vec_ext : forall (x y : evec), length x = length y ->
  (forall j, (j < length x)%nat -> x@j = y@j) -> x = y.
Proof. intros x y Hl H. apply (nth_ext x y (Fin 0) (Fin 0) Hl H). Qed.

Definition lin1 (F : R) (a b c : list R) : list R :=
  map (fun i => nth i a 0 + F * (nth i b 0 - nth i c 0)) (seq 0 (length a)).
Definition lin2 (F : R) (a b c d e : list R) : list R :=
  map (fun i => nth i a 0 + F * (nth i b 0 + nth i c 0 - nth i d 0 - nth i e 0)) (seq 0 (length a)).
Lemma lin1_cons F x a y b z c : lin1 F (x :: a) (y :: b) (z :: c) = (x + F * (y - z)) :: lin1 F a b c.
Proof. unfold lin1. cbn [length seq map nth]. f_equal. rewrite <- seq_shift, map_map. reflexivity. Qed.
Lemma lin2_cons F x a y b z c p d q e :
  lin2 F (x :: a) (y :: b) (z :: c) (p :: d) (q :: e) = (x + F * (y + z - p - q)) :: lin2 F a b c d e.
Proof. unfold lin2. cbn [length seq map nth]. f_equal. rewrite <- seq_shift, map_map. reflexivity. Qed.
Lemma form_lin1 F : forall h a b c, length b = length a -> length c = length a ->
  form h (lin1 F a b c) = form h a + F * (form h b - form h c).
Proof.
  induction h as [|x h IH]; intros a b c H1 H2; [destruct (lin1 F a b c); cbn; ring|].
  destruct a as [|a0 a], b as [|b0 b], c as [|c0 c]; try discriminate; [cbn; ring|].
  rewrite lin1_cons. cbn [form]. rewrite IH by (cbn in *; lia). ring.
Qed.
Lemma form_lin2 F : forall h a b c d e, length b = length a -> length c = length a -> length d = length a ->
  length e = length a ->
  form h (lin2 F a b c d e) = form h a + F * (form h b + form h c - form h d - form h e).
Proof.
  induction h as [|x h IH]; intros a b c d e H1 H2 H3 H4; [destruct (lin2 F a b c d e); cbn; ring|].
  destruct a as [|a0 a], b as [|b0 b], c as [|c0 c], d as [|d0 d], e as [|e0 e]; try discriminate; [cbn; ring|].
  rewrite lin2_cons. cbn [form]. rewrite IH by (cbn in *; lia). ring.
Qed.
Lemma lin1_len F a b c : length (lin1 F a b c) = length a.
Proof. unfold lin1. rewrite map_length, seq_length. reflexivity. Qed.
Lemma lin2_len F a b c d e : length (lin2 F a b c d e) = length a.
Proof. unfold lin2. rewrite map_length, seq_length. reflexivity. Qed.
Lemma lin1_at F a b c j : (j < length a)%nat ->
  nth j (lin1 F a b c) 0 = nth j a 0 + F * (nth j b 0 - nth j c 0).
Proof.
  intros Hj. unfold lin1. set (g := fun i => _). rewrite (nth_indep _ 0 (g 0%nat)) by (rewrite map_length, seq_length; exact Hj).
  rewrite map_nth, seq_nth by exact Hj. reflexivity.
Qed.
Lemma lin2_at F a b c d e j : (j < length a)%nat ->
  nth j (lin2 F a b c d e) 0 = nth j a 0 + F * (nth j b 0 + nth j c 0 - nth j d 0 - nth j e 0).
Proof.
  intros Hj. unfold lin2. set (g := fun i => _). rewrite (nth_indep _ 0 (g 0%nat)) by (rewrite map_length, seq_length; exact Hj).
  rewrite map_nth, seq_nth by exact Hj. reflexivity.
Qed.

(** ** de *)
Section Hull.
  Context {E : Env ENum} (HE : EnvOK).

  Lemma de_params A w a0 res st' : exec (de_minimize A) w a0 = (inl res, st') ->
    isfin (dea_mutation A) /\ isfin (dea_recombination A).
  Proof.
    intros Hx.
    enough (H : wp (de_minimize A) (fun _ _ => isfin (dea_mutation A) /\ isfin (dea_recombination A)) anyx (mkSt w [] a0))
      by exact (wp_elim _ _ _ _ _ _ H Hx).
    clear Hx. unfold de_minimize.
    apply wp_bind, wp_weak, wp_check_pop. intros Hargs.
    apply wp_bind, wp_weak, wp_raise_if; [discriminate|]. intros H1.
    apply wp_bind, wp_weak, wp_raise_if; [discriminate|]. intros H2.
    apply in_range_fin in H1, H2.
    match goal with |- wp ?m _ _ ?s => unfold wp; destruct (m s) as [[r|e] s'] end; [|exact I]. auto.
  Qed.

  Lemma closed_fin strategy (F : R) (S : R -> Prop) :
    (forall a b c, S a -> S b -> S c -> S (a + F * (b - c))) ->
    (forall a b c d e, S a -> S b -> S c -> S d -> S e -> S (a + F * (b + c - d - e))) ->
    Closed (N := ENum) strategy (Fin F) (fun v => exists r, v = Fin r /\ S r).
  Proof.
    intros H1 H2. split.
    - intros _ a b c (ra & -> & Ha) (rb & -> & Hb) (rc & -> & Hc).
      exists (ra + F * (rb - rc)). split; [reflexivity|auto].
    - intros _ a b c d e (ra & -> & Ha) (rb & -> & Hb) (rc & -> & Hc) (rd & -> & Hd) (re & -> & He).
      exists (ra + F * (rb + rc - rd - re)). split; [reflexivity|auto].
  Qed.

  (** A coordinate in which the initial population agrees is never changed. *)
  Theorem C73_frozen_de A (rows : list evec) w a0 res st' j c :
    a_bounds (dea A) = D2 2 rows ->
    (forall x, a_x0 (dea A) = Some x -> nd_wf x) ->
    a_backend (dea A) <> Some "mpi"%string ->
    (j < length rows)%nat ->
    (a_constraints (dea A) <> None ->
       er_ltb (Fin c) (row rows j)@0 = false /\ er_ltb (row rows j)@1 (Fin c) = false) ->
    exec (de_minimize A) w a0 = (inl res, st') ->
    Agree j c (firstn (Z.to_nat (a_popsize (dea A))) (evals (tr st'))) ->
    Agree j c (evals (tr st')) /\ (r_x res)@j = Fin c.
  Proof.
    intros Hb Hwf Hm Hj Hcon Hx HQ.
    destruct (de_params A w a0 res st' Hx) as [HF _].
    destruct (dea_mutation A) as [F| | |] eqn:HFe; try (destruct HF; fail).
    refine (C73_closed HE A rows w a0 res st' j (fun v => v = Fin c) Hb Hwf Hm Hj _ _ Hx HQ).
    - rewrite HFe. split.
      + intros _ x y z -> -> ->. cbn. f_equal. ring.
      + intros _ x y z t u -> -> -> -> ->. cbn. f_equal. ring.
    - intros Hc v ->. exact (Hcon Hc).
  Qed.

  (** Integer mutation factor: coordinates that start on a grid stay on it. *)
  Theorem C73_grid A (rows : list evec) w a0 res st' j c h m :
    a_bounds (dea A) = D2 2 rows ->
    (forall x, a_x0 (dea A) = Some x -> nd_wf x) ->
    a_backend (dea A) <> Some "mpi"%string -> a_constraints (dea A) = None ->
    dea_mutation A = Fin (IZR m) ->
    (j < length rows)%nat ->
    exec (de_minimize A) w a0 = (inl res, st') ->
    let Grid := fun e : evec * er => exists k, (fst e)@j = Fin (c + h * IZR k) in
    Forall Grid (firstn (Z.to_nat (a_popsize (dea A))) (evals (tr st'))) ->
    Forall Grid (evals (tr st')).
  Proof.
    intros Hb Hwf Hm Hc HF Hj Hx Grid HQ.
    pose (S := fun r => exists k, r = c + h * IZR k).
    assert (HG : forall l : list (evec * er), Forall Grid l <-> Forall (fun e => exists r, (fst e)@j = Fin r /\ S r) l).
    { intros l. rewrite !Forall_forall. split; intros H e He; destruct (H e He) as [k Hk].
      - exists (c + h * IZR k). split; [exact Hk|exists k; reflexivity].
      - destruct Hk as (H1 & z & ->). exists z. exact H1. }
    apply HG. apply HG in HQ.
    refine (proj1 (C73_closed HE A rows w a0 res st' j (fun v => exists r, v = Fin r /\ S r) Hb Hwf Hm Hj _ _ Hx HQ)).
    - rewrite HF. apply closed_fin.
      + intros x y z (k1 & ->) (k2 & ->) (k3 & ->). exists (k1 + m * (k2 - k3))%Z.
        rewrite plus_IZR, mult_IZR, minus_IZR. ring.
      + intros x y z t u (k1 & ->) (k2 & ->) (k3 & ->) (k4 & ->) (k5 & ->). exists (k1 + m * (k2 + k3 - k4 - k5))%Z.
        rewrite plus_IZR, mult_IZR, !minus_IZR, plus_IZR. ring.
    - intros Hc'. destruct (Hc' Hc).
  Qed.

  (** Mutation factor 0: every coordinate of every point is one of an initial individual. *)
  Theorem C73_recombination A (rows : list evec) w a0 res st' j :
    a_bounds (dea A) = D2 2 rows ->
    (forall x, a_x0 (dea A) = Some x -> nd_wf x) ->
    a_backend (dea A) <> Some "mpi"%string -> a_constraints (dea A) = None ->
    dea_mutation A = Fin 0 ->
    (j < length rows)%nat ->
    exec (de_minimize A) w a0 = (inl res, st') ->
    let l0 := firstn (Z.to_nat (a_popsize (dea A))) (evals (tr st')) in
    Forall (fun e => isfin (fst e)@j) l0 ->
    forall e, In e (evals (tr st')) -> exists e0, In e0 l0 /\ (fst e)@j = (fst e0)@j.
  Proof.
    intros Hb Hwf Hm Hc HF Hj Hx l0 HQ.
    pose (S := fun r => exists e0, In e0 l0 /\ Fin r = (fst e0)@j).
    assert (HA : Forall (fun e => exists r, (fst e)@j = Fin r /\ S r) (evals (tr st'))).
    { refine (proj1 (C73_closed HE A rows w a0 res st' j (fun v => exists r, v = Fin r /\ S r) Hb Hwf Hm Hj _ _ Hx _)).
      - rewrite HF. apply closed_fin.
        + intros x y z Hs _ _. replace (x + 0 * (y - z)) with x by ring. exact Hs.
        + intros x y z t u Hs _ _ _ _. replace (x + 0 * (y + z - t - u)) with x by ring. exact Hs.
      - intros Hc'. destruct (Hc' Hc).
      - apply Forall_forall. intros e He. rewrite Forall_forall in HQ. assert (Hf : isfin (fst e)@j) by exact (HQ e He).
        destruct ((fst e)@j) as [r| | |] eqn:Hr; try (destruct Hf; fail). exists r. split; [exact Hr|]. exists e. split; [exact He|symmetry; exact Hr]. }
    intros e He. rewrite Forall_forall in HA. destruct (HA e He) as (r & H1 & e0 & H2 & H3). exists e0. split; [exact H2|].
    etransitivity; [exact H1|exact H3].
  Qed.

  (** Recombination 1: every hyperplane that contains the initial population contains every point,
      so de searches at most the affine hull of its first popsize points. *)
  Theorem C73_hull A (rows : list evec) w a0 res st' a b :
    a_bounds (dea A) = D2 2 rows ->
    (forall x, a_x0 (dea A) = Some x -> nd_wf x) ->
    a_backend (dea A) <> Some "mpi"%string -> a_constraints (dea A) = None ->
    dea_recombination A = Fin 1 ->
    exec (de_minimize A) w a0 = (inl res, st') ->
    Forall (fun e => OnPlane (length rows) a b (fst e)) (firstn (Z.to_nat (a_popsize (dea A))) (evals (tr st'))) ->
    Forall (fun e => OnPlane (length rows) a b (fst e)) (evals (tr st')) /\ OnPlane (length rows) a b (r_x res).
  Proof.
    intros Hb Hwf Hm Hc HCR Hx HQ.
    destruct (de_params A w a0 res st' Hx) as [HF _].
    destruct (dea_mutation A) as [F| | |] eqn:HFe; try (destruct HF; fail).
    refine (de_keeps HE A rows (OnPlane (length rows) a b) w a0 res st' Hb Hwf Hm _ Hx HQ).
    intros X g i u HX HXQ Hg Hi (v & x & (Hvl & ks & Hnd & Hks & Hv) & (Hxl & jr & r & Hjr & Hr & Hcr) & Hrep).
    rewrite Hc in Hrep. cbn [Repaired] in Hrep. subst u. rewrite HFe in Hv. rewrite HCR in Hcr.
    assert (Hxv : x = v).
    { apply vec_ext; [etransitivity; [exact Hxl|symmetry; exact Hvl]|]. intros j Hj.
      assert (Hj' : (j < length rows)%nat) by (eapply Nat.lt_le_trans; [exact Hj|]; apply Nat.eq_le_incl; exact Hxl).
      specialize (Hcr j Hj'). 
      assert (Hle : er_leb (r@j) (Fin 1) = true).
      { destruct Hr as [Hrl Hr]. rewrite Forall_forall in Hr.
        assert (Hin : In (r@j) r). { apply nth_In. eapply Nat.lt_le_trans; [exact Hj'|]; apply Nat.eq_le_incl; symmetry; exact Hrl. }
        destruct (Hr _ Hin) as [s Hs]. destruct (eo_rand HE s) as [H0 H1]. rewrite <- Hs in H0, H1.
        change (er_ltb (r@j) (Fin 1) = true) in H1. destruct (r@j); cbn in *; try discriminate; try reflexivity.
        rb. lra. }
      etransitivity; [exact Hcr|]. 
      match goal with |- (if ?c then _ else _) = _ => assert (Hcc : c = true) end.
      { apply orb_true_iff. right. exact Hle. }
      rewrite Hcc. reflexivity. }
    subst x.
    assert (HR : forall k, In k ks -> OnPlane (length rows) a b (row X k)).
    { intros k Hk. rewrite Forall_forall in Hks. apply (row_in (N := ENum)); [exact HXQ|]. apply Hks, Hk. }
    assert (H1 : forall p q s, OnPlane (length rows) a b p -> OnPlane (length rows) a b q -> OnPlane (length rows) a b s ->
      (forall j, (j < length rows)%nat -> v@j = er_add p@j (er_mul (Fin F) (er_sub q@j s@j))) ->
      OnPlane (length rows) a b v).
    { intros p q s (rp & Lp & -> & Ep) (rq & Lq & -> & Eq) (rs & Ls & -> & Es) Hf.
      exists (lin1 F rp rq rs). split; [rewrite lin1_len; exact Lp|]. split.
      - apply vec_ext; [rewrite map_length, lin1_len, Lp; exact Hvl|]. intros j Hj.
        assert (Hj' : (j < length rows)%nat) by (eapply Nat.lt_le_trans; [exact Hj|]; apply Nat.eq_le_incl; exact Hvl).
        etransitivity; [exact (Hf j Hj')|]. rewrite !fin_at, lin1_at by lia. reflexivity.
      - rewrite form_lin1 by lia. rewrite Ep, Eq, Es. ring. }
    assert (H2 : forall p q s t z, OnPlane (length rows) a b p -> OnPlane (length rows) a b q -> OnPlane (length rows) a b s ->
      OnPlane (length rows) a b t -> OnPlane (length rows) a b z ->
      (forall j, (j < length rows)%nat ->
         v@j = er_add p@j (er_mul (Fin F) (er_sub (er_sub (er_add q@j s@j) t@j) z@j))) ->
      OnPlane (length rows) a b v).
    { intros p q s t z (rp & Lp & -> & Ep) (rq & Lq & -> & Eq) (rs & Ls & -> & Es) (rt & Lt & -> & Et) (rz & Lz & -> & Ez) Hf.
      exists (lin2 F rp rq rs rt rz). split; [rewrite lin2_len; exact Lp|]. split.
      - apply vec_ext; [rewrite map_length, lin2_len, Lp; exact Hvl|]. intros j Hj.
        assert (Hj' : (j < length rows)%nat) by (eapply Nat.lt_le_trans; [exact Hj|]; apply Nat.eq_le_incl; exact Hvl).
        etransitivity; [exact (Hf j Hj')|]. rewrite !fin_at, lin2_at by lia. reflexivity.
      - rewrite form_lin2 by lia. rewrite Ep, Eq, Es, Et, Ez. ring. }
    destruct Hv as [[Hs (k0 & k1 & k2 & -> & Hf)]|[[Hs (k0 & k1 & k2 & k3 & k4 & -> & Hf)]|[[Hs (k0 & k1 & -> & Hf)]|[Hs (k0 & k1 & k2 & k3 & -> & Hf)]]]].
    - refine (H1 _ _ _ (HR k0 _) (HR k1 _) (HR k2 _) Hf); cbn; tauto.
    - refine (H2 _ _ _ _ _ (HR k0 _) (HR k1 _) (HR k2 _) (HR k3 _) (HR k4 _) Hf); cbn; tauto.
    - refine (H1 _ _ _ Hg (HR k0 _) (HR k1 _) Hf); cbn; tauto.
    - refine (H2 _ _ _ _ _ Hg (HR k0 _) (HR k1 _) (HR k2 _) (HR k3 _) Hf); cbn; tauto.
  Qed.
End Hull.

(** ** pso and cpso *)
Section Frozen.
  Context {E : Env ENum} (HE : EnvOK).

  Lemma rand_at d r j : draws d r -> (j < d)%nat -> exists q, r@j = Fin q.
  Proof.
    intros [Hl Hr] Hj. rewrite Forall_forall in Hr.
    assert (Hin : In (r@j) r). { apply nth_In. eapply Nat.lt_le_trans; [exact Hj|]; apply Nat.eq_le_incl; symmetry; exact Hl. }
    destruct (Hr _ Hin) as [s Hs]. destruct (eo_rand HE s) as [H0 H1]. rewrite <- Hs in H0, H1.
    change (er_ltb (r@j) (Fin 1) = true) in H1. change (er_leb (Fin 0) (r@j) = true) in H0.
    destruct (r@j) as [q| | |]; cbn in *; try discriminate. exists q. reflexivity.
  Qed.

  Lemma move_keeps A (rows : list evec) (x v b g x' v' : evec) j c :
    isfin (pa_inertia A) -> isfin (pa_cognitivity A) -> isfin (pa_sociability A) -> (j < length rows)%nat ->
    Move A rows x v b g x' v' -> (a_constraints (pa A) = None \/ isfin x'@j) ->
    x@j = Fin c -> v@j = Fin 0 -> b@j = Fin c -> g@j = Fin c -> x'@j = Fin c /\ v'@j = Fin 0.
  Proof.
    intros H1 H2 H3 Hj (u & (Hul & r1 & r2 & Hr1 & Hr2 & Hu) & HS & Hxl & Hx') Hc Hx Hv Hb Hg.
    destruct (rand_at _ _ _ Hr1 Hj) as [q1 E1]. destruct (rand_at _ _ _ Hr2 Hj) as [q2 E2].
    assert (Huj : u@j = Fin 0).
    { etransitivity; [exact (Hu j Hj)|].
      change (er_add (er_add (er_mul (pa_inertia A) v@j) (er_mul (er_mul (pa_cognitivity A) r1@j) (er_sub b@j x@j)))
                     (er_mul (er_mul (pa_sociability A) r2@j) (er_sub g@j x@j)) = Fin 0).
      rewrite Hx, Hv, Hb, Hg, E1, E2.
      destruct (pa_inertia A), (pa_cognitivity A), (pa_sociability A); try contradiction. cbn. f_equal. ring. }
    assert (Hx'j : x'@j = er_add x@j v'@j) by exact (Hx' j Hj).
    assert (Hv' : v'@j = Fin 0).
    { unfold Shrunk in HS. destruct (a_constraints (pa A)) as [s|].
      - destruct HS as [_ (q & Hq & _)].
        assert (Hvq : v'@j = er_mul u@j q).
        { apply (Hq j). eapply Nat.lt_le_trans; [exact Hj|]; apply Nat.eq_le_incl; symmetry; exact Hul. }
        rewrite Huj in Hvq. destruct Hc as [Hc|Hc]; [discriminate|].
        rewrite Hx'j, Hx, Hvq in Hc. rewrite Hvq.
        destruct q as [q| | |]; cbn [er_mul er_add isfin] in *; try contradiction; [f_equal; ring| |];
          exfalso; revert Hc; unfold er_sgn; repeat destruct (Rlt_dec _ _); try lra; intros [].
      - rewrite HS. exact Huj. }
    split; [|exact Hv']. rewrite Hx'j, Hx, Hv'. cbn. f_equal. ring.
  Qed.

  Lemma comb_len {A B} (x : list A) (y : list B) n : length x = n -> length y = n -> length (combine x y) = n.
  Proof. intros. rewrite combine_length. lia. Qed.
  Lemma comb_in {A B} (x : list A) (y : list B) n i dx dy : length x = n -> length y = n -> (i < n)%nat ->
    In (nth i x dx, nth i y dy) (combine x y).
  Proof. intros. rewrite <- combine_nth by lia. apply nth_In. rewrite combine_length. lia. Qed.
  Lemma nth_repeat_lt {A} (a d : A) n i : (i < n)%nat -> nth i (repeat a n) d = a.
  Proof. revert i. induction n as [|n IH]; intros [|i] H; cbn; try lia; [reflexivity|apply IH; lia]. Qed.

  Lemma flight_keeps A (rows : list evec) p deferred serial j c :
    isfin (pa_inertia A) -> isfin (pa_cognitivity A) -> isfin (pa_sociability A) -> (j < length rows)%nat ->
    (0 < p)%nat -> truthy (pa_competitivity A) = None ->
    forall ready X V B f g gf l, Flight A rows p deferred serial ready X V B f g gf l ->
    (a_constraints (pa A) = None \/ Forall (fun e => isfin (fst e)@j) l) ->
    Agree j c (firstn p l) ->
    (p <= length l)%nat /\ length X = p /\ length V = p /\ length B = p /\
    (forall i, (i < p)%nat -> (row X i)@j = Fin c /\ (row V i)@j = Fin 0 /\ (row B i)@j = Fin c) /\
    g@j = Fin c /\ Agree j c l.
  Proof.
    intros P1 P2 P3 Hj Hp Hnc ready X V B f g gf l HFl.
    induction HFl as [X f k l HX HXl Hf HP HS Hk
      |X V B f g gf l X' V' y B' f' k l' Hd HFl IH HX' HV' Hy HB' Hf' HM HP HS HBi Hfi Hk
      |X V B f g gf l i x v y B' f' g' gf' Hd HFl IH Hi HM HB' Hg'
      |X V B f g gf l X' V' B' f' HFl IH HR]; intros Hc HQ.
    - assert (Hll : length l = p). { etransitivity; [exact (Permutation_length HP)|]. exact (comb_len _ _ _ HX Hf). }
      rewrite (firstn_all2 l) in HQ by (apply Nat.eq_le_incl; exact Hll).
      assert (Hrow : forall i, (i < p)%nat -> (row X i)@j = Fin c).
      { intros i Hi. assert (Hin : In (row X i, f@i) (combine X f)).
        { exact (comb_in _ _ _ _ _ _ HX Hf Hi). }
        unfold Agree in HQ. rewrite Forall_forall in HQ. apply (Permutation_in _ (Permutation_sym HP)), HQ in Hin. exact Hin. }
      split; [apply Nat.eq_le_incl; symmetry; exact Hll|]. split; [exact HX|]. split; [apply repeat_length|]. split; [exact HX|]. split.
      { intros i Hi. split; [auto|]. split; [|auto]. rewrite nth_repeat_lt by exact Hi. apply nth_repeat_lt, Hj. }
      split; [|exact HQ]. apply Hrow. destruct Hk as [Hk _]. exact (Nat.lt_le_trans _ _ _ Hk (Nat.eq_le_incl _ _ Hf)).
    - assert (Hc0 : a_constraints (pa A) = None \/ Forall (fun e => isfin (fst e)@j) l).
      { destruct Hc as [Hc|Hc]; [left; exact Hc|right]. apply Forall_app in Hc. apply Hc. }
      unfold Agree in HQ. rewrite firstn_app in HQ. apply Forall_app in HQ. destruct HQ as [HQ _].
      destruct (IH Hc0 HQ) as (H1 & H2 & H3 & H4 & H5 & H6 & H7).
      assert (Hin : forall i, (i < p)%nat -> In (row X' i, y@i) l').
      { intros i Hi. apply (Permutation_in _ (Permutation_sym HP)). exact (comb_in _ _ _ _ _ _ HX' Hy Hi). }
      assert (Hmv : forall i, (i < p)%nat -> (row X' i)@j = Fin c /\ (row V' i)@j = Fin 0).
      { intros i Hi. destruct (H5 i Hi) as (G1 & G2 & G3).
        apply (move_keeps A rows _ _ _ _ _ _ j c P1 P2 P3 Hj (HM i Hi)); auto.
        destruct Hc as [Hc|Hc]; [left; exact Hc|right]. rewrite Forall_forall in Hc. apply (Hc (row X' i, y@i)).
        apply in_or_app. right. apply Hin, Hi. }
      assert (HBj : forall i, (i < p)%nat -> (row B' i)@j = Fin c).
      { intros i Hi. assert (HBr : row B' i = if er_ltb y@i f@i then row X' i else row B i) by exact (HBi i Hi).
        rewrite HBr. destruct (er_ltb _ _); [apply Hmv, Hi|apply H5, Hi]. }
      split; [rewrite app_length; apply Nat.le_trans with (1 := H1), Nat.le_add_r|]. split; [exact HX'|]. split; [exact HV'|]. split; [exact HB'|].
      split; [intros i Hi; destruct (Hmv i Hi); auto|].
      split; [apply HBj; destruct Hk as [Hk _]; exact (Nat.lt_le_trans _ _ _ Hk (Nat.eq_le_incl _ _ Hf'))|].
      apply Forall_app. split; [exact H7|]. apply Forall_forall. intros [x z] Hx.
      apply (Permutation_in _ HP), in_combine_l in Hx. cbn [fst].
      destruct (In_nth _ _ [] Hx) as (i & Hi & Hxi). change ((row X' i) = x) in Hxi. rewrite <- Hxi. apply Hmv. exact (Nat.lt_le_trans _ _ _ Hi (Nat.eq_le_incl _ _ HX')).
    - assert (Hc0 : a_constraints (pa A) = None \/ Forall (fun e => isfin (fst e)@j) l).
      { destruct Hc as [Hc|Hc]; [left; exact Hc|right]. apply Forall_app in Hc. apply Hc. }
      unfold Agree in HQ. rewrite firstn_app in HQ. apply Forall_app in HQ. destruct HQ as [HQ _].
      destruct (IH Hc0 HQ) as (H1 & H2 & H3 & H4 & H5 & H6 & H7).
      assert (Hip : (i < p)%nat) by (subst i; apply Nat.mod_upper_bound; lia).
      destruct (H5 i Hip) as (G1 & G2 & G3).
      assert (Hmv : x@j = Fin c /\ v@j = Fin 0).
      { apply (move_keeps A rows _ _ _ _ _ _ j c P1 P2 P3 Hj HM); auto.
        destruct Hc as [Hc|Hc]; [left; exact Hc|right]. apply Forall_app in Hc. destruct Hc as [_ Hc]. inversion Hc; subst. assumption. }
      destruct Hmv as [Hxj Hvj].
      assert (Hup : forall (Z : list evec) z m r, length Z = p -> z@j = r -> (forall i, (i < p)%nat -> (row Z i)@j = r) ->
        (m < p)%nat -> (row (upd i z Z) m)@j = r).
      { intros Z z m r HZ Hz HZr Hmp. destruct (Nat.eq_dec i m) as [<-|Hne].
        - rewrite upd_nth_same; [exact Hz|]. rewrite HZ. exact Hmp.
        - rewrite upd_nth_other by exact Hne. auto. }
      assert (HBB : length B' = p /\ forall m, (m < p)%nat -> (row B' m)@j = Fin c).
      { match type of HB' with (if ?q then _ else _) => destruct q end; destruct HB' as [-> _]; [|split; [exact H4|intros m Hmp; apply H5, Hmp]].
        split; [rewrite upd_length; exact H4|]. intros m Hmp. apply Hup; auto. intros k Hk. apply H5, Hk. }
      split; [rewrite app_length; apply Nat.le_trans with (1 := H1), Nat.le_add_r|]. split; [rewrite upd_length; exact H2|]. split; [rewrite upd_length; exact H3|].
      split; [apply HBB|]. split.
      { intros m Hmp. split; [apply Hup; auto; intros k Hk; apply H5, Hk|].
        split; [apply Hup; auto; intros k Hk; apply H5, Hk|apply HBB, Hmp]. }
      split. { match type of Hg' with (if ?q then _ else _) => destruct q end; destruct Hg' as [-> _]; assumption. }
      apply Forall_app. split; [exact H7|]. repeat constructor. exact Hxj.
    - destruct (IH Hc HQ) as (H1 & H2 & H3 & H4 & H5 & H6 & H7).
      assert (HSame : X' = X /\ V' = V /\ B' = B /\ f' = f).
      { unfold Regroup in HR. unfold truthy in Hnc. destruct (pa_competitivity A) as [q|]; [|exact HR].
        destruct (neqb q n0); [exact HR|discriminate]. }
      destruct HSame as (-> & -> & -> & ->). auto 10.
  Qed.

  Lemma cpso_params A w a0 res st' : exec (cpso_minimize A) w a0 = (inl res, st') ->
    isfin (pa_inertia A) /\ isfin (pa_cognitivity A) /\ isfin (pa_sociability A) /\
    (2 <= a_popsize (pa A))%Z.
  Proof.
    intros Hx.
    enough (H : wp (cpso_minimize A) (fun _ _ => isfin (pa_inertia A) /\ isfin (pa_cognitivity A) /\
      isfin (pa_sociability A) /\ (2 <= a_popsize (pa A))%Z) anyx (mkSt w [] a0))
      by exact (wp_elim _ _ _ _ _ _ H Hx).
    clear Hx. unfold cpso_minimize.
    apply wp_bind, wp_weak, wp_check_pop. intros Hargs.
    apply wp_bind, wp_weak, wp_raise_if; [discriminate|]. intros H1.
    apply wp_bind, wp_weak, wp_raise_if; [discriminate|]. intros H2.
    apply wp_bind, wp_weak, wp_raise_if; [discriminate|]. intros H3.
    apply in_range_fin in H1, H2, H3. pose proof (pao_pop _ Hargs) as Hp.
    match goal with |- wp ?m _ _ ?s => unfold wp; destruct (m s) as [[r|e] s'] end; [|exact I].
    repeat split; auto; lia.
  Qed.

  (** A coordinate in which the initial swarm agrees is never changed: without constraints, or with
      constraints = "Shrink" and a swarm that starts within finite bounds. *)
  Theorem C73_frozen_cpso A (rows : list evec) w a0 res st' j c :
    a_bounds (pa A) = D2 2 rows ->
    (forall x, a_x0 (pa A) = Some x -> nd_wf x) ->
    a_backend (pa A) <> Some "mpi"%string ->
    truthy (pa_competitivity A) = None ->
    (j < length rows)%nat ->
    (a_constraints (pa A) <> None -> a_constraints (pa A) = Some "Shrink"%string /\ FiniteBox rows /\
       forall x, a_x0 (pa A) = Some x -> Forall (FBox rows) (nd_rows x)) ->
    exec (cpso_minimize A) w a0 = (inl res, st') ->
    Agree j c (firstn (Z.to_nat (a_popsize (pa A))) (evals (tr st'))) ->
    Agree j c (evals (tr st')) /\ (r_x res)@j = Fin c.
  Proof.
    intros Hb Hwf Hm Hnc Hj Hcon Hx HQ.
    destruct (cpso_params A w a0 res st' Hx) as (P1 & P2 & P3 & P4).
    destruct (C57_flight HE A rows w a0 res st' Hb Hwf Hm (fun H => False_ind _ (H Hnc)) Hx) as (X & V & B & f & HFl & _).
    assert (Hc : a_constraints (pa A) = None \/ Forall (fun e : evec * er => isfin (fst e)@j) (evals (tr st'))).
    { destruct (a_constraints (pa A)) as [s|] eqn:Hs; [right|left; reflexivity].
      destruct (Hcon ltac:(discriminate)) as (Hs' & HF & H0).
      assert (Hcs : a_constraints (pa A) = Some "Shrink"%string) by (etransitivity; [exact Hs|exact Hs']).
      destruct (C11_cpso HE A rows w a0 _ st' Hb Hcs HF (fun h => False_ind _ (Hm h)) H0 Hx) as (Hpts & _).
      apply Forall_forall. intros z Hz. apply points_of_evals, Hpts in Hz.
      apply (FBox_at rows _ HF) in Hz. destruct Hz as [_ Hz]. destruct (Hz j Hj) as (lo & hi & q & _ & Hq & _).
      exact (eq_ind_r (fun v : er => isfin v) (I : isfin (Fin q)) Hq). }
    assert (Hp : (0 < Z.to_nat (a_popsize (pa A)))%nat) by lia.
    destruct (flight_keeps A rows _ _ _ j c P1 P2 P3 Hj Hp Hnc _ _ _ _ _ _ _ _ HFl Hc HQ) as (_ & _ & _ & _ & _ & H1 & H2).
    split; [exact H2|exact H1].
  Qed.

  Theorem C73_frozen_pso A (rows : list evec) w a0 res st' j c :
    a_bounds (psa A) = D2 2 rows ->
    (forall x, a_x0 (psa A) = Some x -> nd_wf x) ->
    a_backend (psa A) <> Some "mpi"%string ->
    (j < length rows)%nat ->
    (a_constraints (psa A) <> None -> a_constraints (psa A) = Some "Shrink"%string /\ FiniteBox rows /\
       forall x, a_x0 (psa A) = Some x -> Forall (FBox rows) (nd_rows x)) ->
    exec (pso_minimize A) w a0 = (inl res, st') ->
    Agree j c (firstn (Z.to_nat (a_popsize (psa A))) (evals (tr st'))) ->
    Agree j c (evals (tr st')) /\ (r_x res)@j = Fin c.
  Proof.
    intros Hb Hwf Hm Hj Hcon Hx HQ.
    exact (C73_frozen_cpso (mkCPSOArgs (psa A) (psa_inertia A) (psa_cognitivity A) (psa_sociability A) None (psa_updating A))
             rows w a0 res st' j c Hb Hwf Hm eq_refl Hj Hcon Hx HQ).
  Qed.
End Frozen.
