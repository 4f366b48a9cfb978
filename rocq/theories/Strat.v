(** C14 and C53: the initial population, in exact arithmetic. *)
From Coq Require Import Reals Lra Permutation.
From Verif Require Import Base Num NumR NumE Env Common DE CPSO NA Hoare EvalRules Gen Steps Hist Runs Best Inst
  Laws Safe Feas FeasPso FeasNa HistFacts PropPop FirstPop.
Open Scope R_scope.

(** One coordinate of a population: exactly one individual in each of the [p] equal strata of
    [lo, hi], in the lower half of its stratum. *)
Definition Stratified (p : nat) (lo hi : R) (col : list er) : Prop :=
  length col = p /\
  exists pi, Permutation pi (seq 0 p) /\
    forall k, (k < p)%nat -> exists r, nth k col NaN = Fin r /\
      lo + (hi - lo) * (INR (nth k pi O) / INR p) <= r /\
      (lo < hi -> r < lo + (hi - lo) * ((INR (nth k pi O) + / 2) / INR p)) /\
      lo <= r <= hi.

Definition column (i : nat) (X : list (list er)) : list er := map (fun x => nth i x NaN) X.

(** Every coordinate of the population. *)
Definition LatinHypercube (p : nat) (rows X : list (list er)) : Prop :=
  Forall (fun x => length x = length rows) X /\
  forall i lo hi, nth_error rows i = Some [Fin lo; Fin hi] -> Stratified p lo hi (column i X).

Section Strat.
  Context {E : Env ENum}.
  Context (HE : EnvOK).

  Lemma nth_lows (rows : list (list er)) i l u : nth_error rows i = Some [l; u] ->
    nth i (@lows (@num_arith ENum) rows) (@n0 (@num_arith ENum)) = l /\ nth i (@ups (@num_arith ENum) rows) (@n0 (@num_arith ENum)) = u /\ (i < length rows)%nat.
  Proof.
    intros H. assert (Hi : (i < length rows)%nat) by (apply nth_error_Some; congruence).
    split; [|split; [|exact Hi]]; apply nth_error_nth; unfold lows, ups.
    - exact (map_nth_error (fun r => nth 0 r (@n0 (@num_arith ENum))) i rows H).
    - exact (map_nth_error (fun r => nth 1 r (@n0 (@num_arith ENum))) i rows H).
  Qed.

  Lemma Sampled_latin p rows X : (0 < p)%nat -> FiniteBox rows ->
    @Sampled ENum p (lows rows) (ups rows) X -> LatinHypercube p rows X.
  Proof.
    intros Hp HF (HX & HL & HS). assert (Hll : length (@lows (@num_arith ENum) rows) = length rows) by apply map_length.
    split; [eapply Forall_impl; [|exact HL]; cbn beta; intros x Hx; exact (eq_trans Hx Hll)|].
    intros i lo hi Hi. destruct (nth_lows _ _ _ _ Hi) as (H1 & H2 & H3).
    assert (Hlu : lo <= hi).
    { apply nth_error_In in Hi. unfold FiniteBox in HF. rewrite Forall_forall in HF.
      destruct (HF _ Hi) as (l & u & He & Hlu). injection He as -> ->. exact Hlu. }
    destruct (HS i (eq_ind_r (fun n => (i < n)%nat) H3 Hll)) as (pi & Hpi & HV).
    split; [unfold column; rewrite map_length; exact HX|]. exists pi. split; [exact Hpi|].
    intros k Hk. destruct (HV k Hk) as (v & Hv0 & Hv1 & He).
    assert (He' : nth i (nth k X []) (Fin 0) = @lhs_point ENum p (nth k pi 0%nat) v (Fin lo) (Fin hi))
      by (rewrite <- H1, <- H2; exact He).
    clear He. rename He' into He. cbn in Hv0, Hv1. destruct v as [v| | |]; try discriminate. cbn in Hv0, Hv1.
    unfold Rlit in Hv0, Hv1. cbn in Hv0, Hv1. rb. rewrite lhs_point_exact in He by exact Hp.
    assert (Hkk : (nth k pi 0 < p)%nat).
    { assert (In (nth k pi 0%nat) (seq 0 p)).
      { eapply Permutation_in; [exact Hpi|]. apply nth_In. rewrite (Permutation_length Hpi), seq_length. exact Hk. }
      apply in_seq in H. lia. }
    set (s := INR (nth k pi 0%nat)) in *.
    assert (HP : 0 < INR p) by (apply lt_0_INR; lia). assert (HI : 0 < / INR p) by (apply Rinv_0_lt_compat, HP).
    assert (Hvr : 0 <= v < 1) by lra.
    pose proof (stratum_unit p (nth k pi 0%nat) v Hkk Hvr) as HU. fold s in HU.
    exists (lo + (hi - lo) * ((s + v / 2) / INR p)). split.
    - unfold column. rewrite nth_indep with (d' := nth i [] NaN)
        by (rewrite map_length; exact (eq_ind_r (fun n => (k < n)%nat) Hk HX)).
      rewrite (map_nth (fun x => nth i x NaN) X []). rewrite <- He. apply nth_indep.
      rewrite Forall_forall in HL. assert (Hin : In (nth k X []) X) by (apply nth_In; exact (eq_ind_r (fun n => (k < n)%nat) Hk HX)).
      exact (eq_ind_r (fun n => (i < n)%nat) (eq_ind_r (fun n => (i < n)%nat) H3 Hll) (HL _ Hin)).
    - split; [|split].
      + apply Rplus_le_compat_l, Rmult_le_compat_l; [lra|]. apply Rmult_le_compat_r; lra.
      + intros Hlt. apply Rplus_lt_compat_l, Rmult_lt_compat_l; [lra|]. apply Rmult_lt_compat_r; lra.
      + split; [|]. 
        * assert (0 <= (hi - lo) * ((s + v / 2) / INR p)) by (apply Rmult_le_pos; lra). lra.
        * assert ((hi - lo) * ((s + v / 2) / INR p) <= (hi - lo) * 1) by (apply Rmult_le_compat_l; lra). lra.
  Qed.

  (** In exact arithmetic na evaluates feasible points where they are. *)
  Lemma unnormalize_normalize (bs : list (er * er)) (x : list er) : Forall2 Cin bs x ->
    @unnormalize ENum (map fst bs) (map snd bs) (@normalize ENum (map fst bs) (map snd bs) x) = x.
  Proof.
    induction 1 as [|[l u] v bs x Hv _ IH]; [reflexivity|].
    destruct l as [l| | |], u as [u| | |], v as [v| | |]; cbn [Cin] in Hv; try tauto.
    cbn [map fst snd]. unfold unnormalize, normalize in *. cbn [map3]. rewrite IH. f_equal.
    change n0 with (Fin 0). change n1 with (Fin 1). cbn [num_arith ENum EArith nltb nsub ndiv nmul nadd er_sub er_ltb].
    destruct (Rltb 0 (u - l)) eqn:Hc; rb.
    - cbn [er_div]. destruct (Req_EM_T (u - l) 0); [exfalso; lra|]. cbn [er_mul er_add]. f_equal. field. lra.
    - f_equal. lra.
  Qed.

  Lemma unnormalize_normalize' (bs : list (er * er)) (lo hi x : list er) :
    lo = map fst bs -> hi = map snd bs -> Forall2 Cin bs x ->
    @unnormalize ENum lo hi (@normalize ENum lo hi x) = x.
  Proof. intros -> ->. apply unnormalize_normalize. Qed.

  Lemma as_evaluated_inside c rows x : FiniteBox rows -> Forall2 Cin (combine (lows rows) (ups rows)) x ->
    @as_evaluated ENum c rows x = x.
  Proof.
    intros HF Hx. destruct c; try reflexivity. cbn [as_evaluated].
    assert (H1 : map fst (combine (@lows (@num_arith ENum) rows) (@ups (@num_arith ENum) rows)) = lows rows)
      by (apply nth_combine_fst; unfold lows, ups; rewrite !map_length; reflexivity).
    assert (H2 : map snd (combine (@lows (@num_arith ENum) rows) (@ups (@num_arith ENum) rows)) = ups rows).
    { unfold lows, ups. clear. induction rows as [|a rows IH]; [reflexivity|]. cbn [map combine snd]. f_equal. exact IH. }
    exact (unnormalize_normalize' _ _ _ _ (eq_sym H1) (eq_sym H2) Hx).
  Qed.

  Lemma map_eq_self {A} (f : A -> A) l : Forall (fun x => f x = x) l -> map f l = l.
  Proof. induction 1; cbn; congruence. Qed.

  Lemma latin_cin p rows X : FiniteBox rows -> length X = p -> LatinHypercube p rows X ->
    Forall (Forall2 Cin (combine (lows rows) (ups rows))) X.
  Proof.
    intros HF HX [HL HS]. apply Forall_forall. intros x Hx.
    destruct (In_nth _ _ [] Hx) as (k & Hk & <-). rewrite HX in Hk.
    rewrite Forall_forall in HL. specialize (HL _ Hx).
    assert (Hlc : length (combine (@lows (@num_arith ENum) rows) (@ups (@num_arith ENum) rows)) = length rows)
      by (unfold lows, ups; rewrite combine_length, !map_length; apply Nat.min_id).
    apply (Forall2_nth Cin _ _ (NaN, NaN) NaN); [exact (eq_trans Hlc (eq_sym HL))|].
    intros i Hi0. assert (Hi : (i < length rows)%nat) by exact (eq_ind _ (fun n => (i < n)%nat) Hi0 _ Hlc).
    destruct (nth_error rows i) as [r|] eqn:Hr; [|apply nth_error_None in Hr; lia].
    pose proof Hr as Hr'. apply nth_error_In in Hr'. unfold FiniteBox in HF. rewrite Forall_forall in HF.
    destruct (HF _ Hr') as (l & u & -> & Hlu). destruct (HS i l u Hr) as (_ & pi & _ & HV).
    destruct (HV k Hk) as (v & Hv & _ & _ & Hb).
    destruct (nth_lows _ _ _ _ Hr) as (H1 & H2 & _).
    assert (Hc : nth i (combine (@lows (@num_arith ENum) rows) (@ups (@num_arith ENum) rows)) (NaN, NaN) = (Fin l, Fin u)).
    { rewrite combine_nth by (unfold lows, ups; rewrite !map_length; reflexivity).
      f_equal; [rewrite <- H1|rewrite <- H2]; apply nth_indep; unfold lows, ups; rewrite map_length; exact Hi. }
    unfold column in Hv.
    rewrite nth_indep with (d' := nth i [] NaN) in Hv by (rewrite map_length, HX; exact Hk).
    rewrite (map_nth (fun x => nth i x NaN) X []) in Hv.
    assert (HG : Cin (Fin l, Fin u) (nth i (nth k X []) NaN)) by (rewrite Hv; exact Hb).
    exact (eq_ind_r (fun b => Cin b _) HG Hc).
  Qed.

  (** Without x0, every execution starts with a stratified population. *)
  Theorem C14_stratified c rows w a0 r st' :
    a_x0 (pop_args c) = None -> a_bounds (pop_args c) = D2 2 rows -> FiniteBox rows ->
    not_mpi c -> exec (pop_run c) w a0 = (r, st') ->
    points (tr st') = [] \/
    exists X Y, length X = Z.to_nat (a_popsize (pop_args c)) /\
      LatinHypercube (Z.to_nat (a_popsize (pop_args c))) rows X /\
      Permutation X Y /\ Opens Y (points (tr st')).
  Proof.
    intros Hx0 Hb HF Hm Hx. destruct (first_points HE c w a0 r st' Hm Hx) as [H|(Y & HY & HO)]; [auto|].
    right. destruct HY as (rows' & X & m & H2 & Hb' & HI & _ & HOrd & _). rewrite Hb in Hb'. injection Hb' as <-.
    unfold Initial in HI. rewrite Hx0 in HI.
    assert (Hp : (0 < Z.to_nat (a_popsize (pop_args c)))%nat) by lia.
    exists X, Y. pose proof (proj1 HI) as HX. pose proof (Sampled_latin _ _ _ Hp HF HI) as HLH.
    split; [exact HX|]. split; [exact HLH|]. split; [|exact HO].
    rewrite map_eq_self in HOrd; [exact HOrd|].
    eapply Forall_impl; [|exact (latin_cin _ _ _ HF HX HLH)]. intros x; apply as_evaluated_inside, HF.
  Qed.

  (** The same for runs that return, where the population is complete. *)
  Theorem C14_returned c rows w a0 res st' :
    a_x0 (pop_args c) = None -> a_bounds (pop_args c) = D2 2 rows -> FiniteBox rows ->
    not_mpi c -> exec (pop_run c) w a0 = (inl res, st') ->
    exists X, LatinHypercube (Z.to_nat (a_popsize (pop_args c))) rows X /\
      Permutation X (firstn (Z.to_nat (a_popsize (pop_args c))) (points (tr st'))).
  Proof.
    intros Hx0 Hb HF Hm Hx.
    destruct (first_points_returned HE c w a0 res st' Hm Hx) as (rows' & X & m & H2 & Hb' & HI & _ & HOrd & _).
    rewrite Hb in Hb'. injection Hb' as <-. unfold Initial in HI. rewrite Hx0 in HI.
    assert (Hp : (0 < Z.to_nat (a_popsize (pop_args c)))%nat) by lia.
    exists X. pose proof (proj1 HI) as HX. pose proof (Sampled_latin _ _ _ Hp HF HI) as HLH.
    split; [exact HLH|]. rewrite map_eq_self in HOrd; [exact HOrd|].
    eapply Forall_impl; [|exact (latin_cin _ _ _ HF HX HLH)]. intros x; apply as_evaluated_inside, HF.
  Qed.

  (** C53 for na: a feasible x0 is evaluated first, row by row. *)
  Theorem C53_na_x0_first A rows x w a0 res st' :
    a_backend (naa A) <> Some "mpi"%string -> a_x0 (naa A) = Some x ->
    a_bounds (naa A) = D2 2 rows -> FiniteBox rows -> Forall (FBox rows) (nd_rows x) ->
    exec (na_minimize A) w a0 = (inl res, st') ->
    Permutation (nd_rows x) (firstn (Z.to_nat (a_popsize (naa A))) (points (tr st'))) /\
    (eval_kind true (a_workers (naa A)) (a_backend (naa A)) = inl Serial ->
     firstn (Z.to_nat (a_popsize (naa A))) (points (tr st')) = nd_rows x).
  Proof.
    intros Hm Hx0 Hb HF Hin Hx.
    destruct (first_points_returned HE (CallNA A) w a0 res st' Hm Hx)
      as (rows' & X & m & H2 & Hb' & HI & Hk & HOrd & HS).
    cbn [pop_args] in *. rewrite Hb in Hb'. injection Hb' as <-. unfold Initial in HI. cbn [pop_args] in HI.
    rewrite Hx0 in HI. subst X. rewrite map_eq_self in HOrd, HS.
    - split; [exact HOrd|]. intros Hk'. apply HS. cbn [pop_sync] in Hk. congruence.
    - eapply Forall_impl; [|exact Hin]. intros y Hy. apply as_evaluated_inside; [exact HF|].
      apply FBox_iff; auto.
    - eapply Forall_impl; [|exact Hin]. intros y Hy. apply as_evaluated_inside; [exact HF|].
      apply FBox_iff; auto.
  Qed.
End Strat.
