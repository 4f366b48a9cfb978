(** C29: the stops EqualFunValues and TolFun of CMA-ES and VD-CMA. *)
From Verif Require Import Base Num Env Common DE CPSO NA Mat CMAES VDCMA Hoare EvalRules Gen Steps
  Hist Runs Best Inst HistFacts HistBest Laws PropPop CmaRun PropCma.

Section MinMax.
  Context {N : Num} {L : OrdLaws num_arith}.
  Notation A := (@num_arith N).

  Definition notnan (x : T) : bool := nleb x x.

  Lemma fold_max_num (l : list T) : forall a,
    nleb (fold_left np_max2 l a) (fold_left np_max2 l a) = true ->
    nleb a (fold_left np_max2 l a) = true /\ forall x, In x l -> nleb x (fold_left np_max2 l a) = true.
  Proof.
    induction l as [|b l IH]; cbn; intros a H; [split; [exact H|intros ? []]|].
    destruct (IH _ H) as [H1 H2]. revert H1 H2. set (R := fold_left np_max2 l (np_max2 a b)) in *.
    intros H1 H2.
    assert (Ha : nleb a R = true /\ nleb b R = true).
    { unfold np_max2 in H1. destruct (nisnan a) eqn:Ea.
      - exfalso. apply le_num_l in H1. apply nisnan_isnum in H1. congruence.
      - apply nisnan_isnum in Ea. destruct (nleb b a) eqn:Hba.
        + split; [exact H1|]. eapply ol_le_trans; eassumption.
        + split; [|exact H1]. eapply ol_le_trans; [|exact H1].
          apply ol_lt_le, nle_lt; auto. eapply le_num_l; exact H1. }
    split; [apply Ha|]. intros x [<-|Hx]; [apply Ha|apply H2, Hx].
  Qed.
  Lemma fold_min_num (l : list T) : forall a,
    nleb (fold_left np_min2 l a) (fold_left np_min2 l a) = true ->
    nleb (fold_left np_min2 l a) a = true /\ forall x, In x l -> nleb (fold_left np_min2 l a) x = true.
  Proof.
    induction l as [|b l IH]; cbn; intros a H; [split; [exact H|intros ? []]|].
    destruct (IH _ H) as [H1 H2]. revert H1 H2. set (R := fold_left np_min2 l (np_min2 a b)) in *.
    intros H1 H2.
    assert (Ha : nleb R a = true /\ nleb R b = true).
    { unfold np_min2 in H1. destruct (nisnan a) eqn:Ea.
      - exfalso. apply le_num_r in H1. apply nisnan_isnum in H1. congruence.
      - apply nisnan_isnum in Ea. destruct (nleb a b) eqn:Hba.
        + split; [exact H1|]. eapply ol_le_trans; eassumption.
        + split; [|exact H1]. eapply ol_le_trans; [exact H1|].
          apply ol_lt_le, nle_lt; auto. eapply le_num_r; exact H1. }
    split; [apply Ha|]. intros x [<-|Hx]; [apply Ha|apply H2, Hx].
  Qed.
  Lemma vmax_ub v : isnum (vmax v) -> forall x, In x v -> nleb x (vmax v) = true.
  Proof.
    destruct v as [|a v]; cbn; [intros _ ? []|]. intros H.
    destruct (fold_max_num v a H) as [H1 H2]. intros x [<-|Hx]; auto.
  Qed.
  Lemma vmin_lb v : isnum (vmin v) -> forall x, In x v -> nleb (vmin v) x = true.
  Proof.
    destruct v as [|a v]; cbn; [intros _ ? []|]. intros H.
    destruct (fold_min_num v a H) as [H1 H2]. intros x [<-|Hx]; auto.
  Qed.

  (** The spread of a list containing 0 bounds every absolute value. *)
  Lemma spread_zero v c : SubLaw A -> In n0 v -> nltb (nsub (vmax v) (vmin v)) c = true ->
    forall x, In x v -> nltb (nabs x) c = true.
  Proof.
    intros S H0 Hc x Hx.
    assert (HM : isnum (vmax v)).
    { unfold isnum. destruct (nleb (vmax v) (vmax v)) eqn:He; [reflexivity|].
      pose proof (sl_nan_l A S (vmin v) (vmax v) He) as Hn.
      pose proof (lt_num_l _ _ Hc) as Hl. unfold isnum in Hl. congruence. }
    assert (Hm : isnum (vmin v)).
    { unfold isnum. destruct (nleb (vmin v) (vmin v)) eqn:He; [reflexivity|].
      pose proof (sl_nan_r A S (vmin v) (vmax v) He) as Hn.
      pose proof (lt_num_l _ _ Hc) as Hl. unfold isnum in Hl. congruence. }
    pose proof (vmax_ub v HM _ H0) as M0. pose proof (vmin_lb v Hm _ H0) as m0.
    destruct (sl_abs A S _ _ x m0 M0 (vmin_lb v Hm _ Hx) (vmax_ub v HM _ Hx)) as [H|H].
    - eapply le_lt_trans; [exact H|]. eapply le_lt_trans; [apply (sl_max A S _ _ m0 M0)|exact Hc].
    - eapply le_lt_trans; [exact H|]. eapply le_lt_trans; [apply (sl_min A S _ _ m0 M0)|exact Hc].
  Qed.
End MinMax.

Section CmaStop.
  Context {N : Num} {E : Env N} {L : OrdLaws num_arith}.

  Lemma CHist_vals Y P cb it s st t : CHist Y P cb it s st t ->
    (forall k, (it <= Z.of_nat k)%Z -> nth k (cv_hist (c_view Y s)) n0 = n0) /\
    ((0 < it)%Z -> nth (Z.to_nat (it - 1)) (cv_hist (c_view Y s)) n0 = cv_bestf (c_view Y s)) /\
    (forall k X u, nth_error (cbs t) k = Some (X, u) -> nth k (cv_hist (c_view Y s)) n0 = cb_fun u).
  Proof.
    induction 1 as [s Hi Hn Hh Hr Hp Hs|it s t s' st evs arx raw Hh IH HG Hmo].
    - rewrite Hh. split; [|split].
      + intros k _. destruct (Nat.lt_ge_cases k (Z.to_nat (cm_maxiter P))) as [Hk|Hk].
        * apply nth_repeat.
        * apply nth_overflow. rewrite repeat_length. exact Hk.
      + lia.
      + intros [|k]; discriminate.
    - destruct IH as (I1 & I2 & I3). rewrite (cg_hist _ _ _ _ _ _ _ _ _ HG).
      destruct (CHist_it _ _ _ _ _ _ _ Hh) as (Hit & _ & _ & Hlen).
      pose proof (cg_it _ _ _ _ _ _ _ _ _ HG) as Hmx.
      replace (it + 1 - 1)%Z with it by lia.
      assert (Hlt : Z.to_nat it < length (cv_hist (c_view Y s))) by (rewrite Hlen; lia).
      split; [|split].
      + intros k Hk. rewrite upd_nth_other by lia. apply I1. lia.
      + intros _. apply upd_nth_same. exact Hlt.
      + intros k X u Hk. rewrite !cbs_app, (cg_cbs _ _ _ _ _ _ _ _ _ HG) in Hk. cbn [app] in Hk.
        pose proof (CHist_cbs _ _ _ _ _ _ _ Hh) as Hl.
        destruct (Nat.lt_ge_cases k (length (cbs t))) as [Hlk|Hlk].
        * rewrite nth_error_app1 in Hk by exact Hlk. rewrite upd_nth_other; [eapply I3; exact Hk|].
          destruct cb; lia.
        * rewrite nth_error_app2 in Hk by exact Hlk. unfold ccbe in Hk. destruct cb.
          2:{ destruct (k - _); discriminate. }
          destruct (k - length (cbs t)) as [|j] eqn:Hj; [|destruct j; discriminate].
          injection Hk as <- <-. replace k with (Z.to_nat it) by lia. cbn [cb_fun c_state].
          apply upd_nth_same. exact Hlt.
  Qed.

  Lemma In_slice {B} (l : list B) (d : B) a b k : a <= k -> k < b -> k < length l ->
    In (nth k l d) (slice a b l).
  Proof.
    intros H1 H2 H3. unfold slice. set (m := skipn a l).
    assert (Hk : nth k l d = nth (k - a) m d).
    { rewrite <- (firstn_skipn a l) at 1. rewrite app_nth2 by (rewrite firstn_length; lia).
      rewrite firstn_length, Nat.min_l by lia. reflexivity. }
    rewrite Hk. rewrite <- (firstn_skipn (b - a) m) at 1.
    rewrite app_nth1.
    - apply nth_In. rewrite firstn_length. unfold m. rewrite skipn_length. lia.
    - rewrite firstn_length. unfold m. rewrite skipn_length. lia.
  Qed.

  (** [w]: the number of generations in the window, the same for both solvers. *)
  Definition window (a : Args) : option Z :=
    ntrunc (nadd (nZ 10) (ndiv (nmul (nZ 30) (nN (nd_len (a_bounds a)))) (nZ (a_popsize a)))).

  Lemma C29_core c w a0 res st' :
    EnvOK -> SubLaw num_arith -> exec (cma_run c) w a0 = (inl res, st') ->
    (r_status res = (-5)%Z -> exists n, window (cma_args c) = Some n /\ (n <= r_nit res)%Z /\
       ((1 <= n)%Z -> nltb (nabs (r_fun res)) (nlit 1 (-10)) = true) /\
       (forall k X u, nth_error (cbs (tr st')) k = Some (X, u) -> (r_nit res - n <= Z.of_nat k)%Z ->
          (0 <= n)%Z -> nltb (nabs (cb_fun u)) (nlit 1 (-10)) = true)) /\
    (r_status res = (-7)%Z ->
       (2 < r_nit res)%Z /\ nltb (nabs (r_fun res)) (nlit 1 (-12)) = true /\
       (forall k X u, nth_error (cbs (tr st')) k = Some (X, u) ->
          nltb (nabs (cb_fun u)) (nlit 1 (-12)) = true) /\
       (c_not_mpi c -> a_constraints (cma_args c) = None ->
        forall x y, In (x, y) (last_gen c res (tr st')) -> nltb (nabs y) (nlit 1 (-12)) = true)).
  Proof.
    intros HE HS Hx.
    destruct (cma_run_hist _ _ _ _ _ HE Hx) as (P & HP & it & s & st & m & Hh & Hi & Hm & ->).
    cbn [r_status r_fun r_nit].
    destruct (CHist_last _ _ _ _ _ _ _ Hh Hi) as (s0 & t0 & evs & arx & raw & Hh0 & HG & _ & Ht).
    destruct (CHist_vals _ _ _ _ _ _ _ Hh) as (V1 & V2 & V3). specialize (V2 Hi).
    destruct (CHist_it _ _ _ _ _ _ _ Hh) as (_ & _ & _ & Hlen).
    destruct (cg_status _ _ _ _ _ _ _ _ _ HG) as (pc & dg & BD & Hst).
    match type of Hst with _ = converge ?a1 ?a2 ?a3 ?a4 ?a5 ?a6 ?a7 ?a8 ?a9 ?b1 ?b2 ?b3 ?b4 ?b5 ?b6 ?b7 =>
      pose proof (converge_cases a1 a2 a3 a4 a5 a6 a7 a8 a9 b1 b2 b3 b4 b5 b6 b7) as Hc end.
    rewrite <- Hst in Hc. set (h := cv_hist (c_view (cma_sysof c P) s)) in *.
    assert (Hnth : forall k X u, nth_error (cbs (tr st')) k = Some (X, u) -> (Z.of_nat k < it)%Z).
    { intros k X u Hk. assert (Hlt : k < length (cbs (tr st'))) by (apply nth_error_Some; congruence).
      rewrite (CHist_cbs _ _ _ _ _ _ _ Hh) in Hlt. destruct (has_cb _); lia. }
    split; intros ->.
    - destruct Hc as [[Hc _]|(Hmx & [(Hc & _)|[(Hc & _)|(_ & Hc)]])]; try discriminate.
      destruct Hc as [Hc|[Hc|[Hc|[(_ & Hil & Hsp)|[Hc|[[Hc _]|Hc]]]]]]; try discriminate.
      exists (cm_ilim P). split.
      { unfold window, cma_args. rewrite <- (cpo_d _ _ HP). exact (cpo_ilim _ _ HP). }
      split; [exact Hil|].
      assert (Hz : (0 <= cm_ilim P)%Z -> In n0 (slice (Z.to_nat (it - cm_ilim P)) (Z.to_nat (it + 1)) h)).
      { intros Hn. rewrite <- (V1 (Z.to_nat it)) by lia. apply In_slice; unfold h in *; lia. }
      split.
      + intros Hn. rewrite <- V2.
        apply (spread_zero _ _ HS (Hz ltac:(lia)) Hsp), In_slice; unfold h in *; lia.
      + intros k X u Hk Hkn Hn. rewrite <- (V3 _ _ _ Hk). specialize (Hnth _ _ _ Hk).
        apply (spread_zero _ _ HS (Hz Hn) Hsp), In_slice; unfold h in *; lia.
    - destruct Hc as [[Hc _]|(Hmx & [(Hc & _)|[(Hc & _)|(_ & Hc)]])]; try discriminate.
      destruct Hc as [Hc|[Hc|[Hc|[(Hc & _)|[Hc|[(_ & Hit & Hsp)|Hc]]]]]]; try discriminate.
      assert (Hz : In n0 (cv_fit (c_view (cma_sysof c P) s) ++ h)).
      { apply in_or_app. right. rewrite <- (V1 (Z.to_nat it)) by lia. apply nth_In. unfold h in *; lia. }
      split; [exact Hit|]. split; [|split].
      + rewrite <- V2. apply (spread_zero _ _ HS Hz Hsp), in_or_app. right. apply nth_In. unfold h in *; lia.
      + intros k X u Hk. rewrite <- (V3 _ _ _ Hk). specialize (Hnth _ _ _ Hk).
        apply (spread_zero _ _ HS Hz Hsp), in_or_app. right. apply nth_In. unfold h in *; lia.
      + intros Hnm Hcon x y Hxy. apply (spread_zero _ _ HS Hz Hsp), in_or_app. left.
        pose proof (c_not_mpi_mode _ _ Hnm HP) as Hmo.
        destruct (cg_ev _ _ _ _ _ _ _ _ _ HG Hmo) as (l & -> & Hl & _).
        assert (Hpen : cm_pen P = false)
          by (rewrite (cpo_pen _ _ HP); unfold cma_args in Hcon; rewrite Hcon; reflexivity).
        destruct (fo_plain _ _ _ _ _ _ _ _ _ (cg_fit _ _ _ _ _ _ _ _ _ HG) Hpen) as (_ & Hfr & _).
        destruct (CHist_evals _ _ _ _ _ _ _ Hmo Hh0) as [Hlen0 _].
        destruct (CGen_len _ _ _ _ _ _ _ _ _ HG) as [Hlv Hlf].
        assert (Hll : length l = cm_p P).
        { rewrite (Permutation_length Hl), combine_length, map_length.
          rewrite (cg_lenr _ _ _ _ _ _ _ _ _ HG). unfold matrix, vec in *. rewrite Hlv. lia. }
        destruct (ccbe_evals P (has_cb (cma_args c)) it (c_view _ s)) as [H1 _].
        assert (Hev : evals (tr st') = evals t0 ++ l)
          by (rewrite Ht, !evals_app, H1, evals_ok, app_nil_r; reflexivity).
        unfold last_gen, cma_args in Hxy. rewrite <- (cpo_p _ _ HP), Hev in Hxy. cbn [r_nit] in Hxy.
        rewrite chunk_app_r in Hxy by (auto; lia).
        apply (Permutation_in _ Hl), in_combine_r in Hxy. rewrite Hfr. exact Hxy.
  Qed.

  (** ** C29 *)
  (** Status -5: every best value of the window is within 1e-10 of zero.  Status -7: every best
      value so far is within 1e-12 of zero. *)
  Theorem C29_measured_against_zero c w a0 res st' :
    EnvOK -> SubLaw num_arith ->
    IlimLaw (nd_len (a_bounds (cma_args c))) (a_popsize (cma_args c)) ->
    exec (cma_run c) w a0 = (inl res, st') ->
    (r_status res = (-5)%Z ->
       nltb (nabs (r_fun res)) (nlit 1 (-10)) = true /\
       exists n, window (cma_args c) = Some n /\ (10 <= n <= r_nit res)%Z /\
       (forall k X u, nth_error (cbs (tr st')) k = Some (X, u) -> (r_nit res - n <= Z.of_nat k)%Z ->
          nltb (nabs (cb_fun u)) (nlit 1 (-10)) = true)) /\
    (r_status res = (-7)%Z ->
       nltb (nabs (r_fun res)) (nlit 1 (-12)) = true /\ (2 < r_nit res)%Z /\
       (forall k X u, nth_error (cbs (tr st')) k = Some (X, u) ->
          nltb (nabs (cb_fun u)) (nlit 1 (-12)) = true)).
  Proof.
    intros HE HS HI Hx. destruct (C29_core c w a0 res st' HE HS Hx) as [H5 H7]. split; intros Hst.
    - destruct (H5 Hst) as (n & Hn & Hn1 & Hf & Hk). pose proof (HI _ Hn) as H10.
      split; [apply Hf; lia|]. exists n. split; [exact Hn|]. split; [lia|].
      intros k X u Hu Hb. eapply Hk; eauto. lia.
    - destruct (H7 Hst) as (H1 & H2 & H3 & _). auto.
  Qed.

  (** A run whose final value is not within 1e-10 of zero never stops for either reason, whatever
      the objective: with a constant objective c, |c| >= 1e-10, the stagnation goes unnoticed. *)
  Theorem C29_no_stagnation_stop c w a0 res st' :
    EnvOK -> SubLaw num_arith ->
    IlimLaw (nd_len (a_bounds (cma_args c))) (a_popsize (cma_args c)) ->
    nleb (nlit 1 (-12)) (nlit 1 (-10)) = true ->
    exec (cma_run c) w a0 = (inl res, st') -> nltb (nabs (r_fun res)) (nlit 1 (-10)) = false ->
    r_status res <> (-5)%Z /\ r_status res <> (-7)%Z.
  Proof.
    intros HE HS HI Hlit Hx Hf. destruct (C29_measured_against_zero c w a0 res st' HE HS HI Hx) as [H5 H7].
    split; intros Hst.
    - destruct (H5 Hst) as [H _]. congruence.
    - destruct (H7 Hst) as [H _]. rewrite (lt_le_trans _ _ _ H Hlit) in Hf. discriminate.
  Qed.
End CmaStop.
