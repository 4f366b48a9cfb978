(** C18, C19 and C24 for the population methods. *)
From Verif Require Import Base Num Env Common DE CPSO NA Hoare EvalRules Gen Steps Hist Runs Best
  Inst HistFacts HistBest PropPop.

Section PropRec.
  Context {N : Num} {E : Env N}.

  (** ** C18: shape *)
  Theorem C18_shape_population c w a0 res st' :
    EnvOK -> exec (pop_run c) w a0 = (inl res, st') ->
    let a := pop_args c in
    (a_return_all a = false -> r_all res = None) /\
    (a_return_all a = true -> exists n xs fs,
        nceilZ (nmul (a_verbosity a) (nZ (a_popsize a))) = Some n /\ (n <= a_popsize a)%Z /\
        r_all res = Some (xs, fs) /\
        Z.of_nat (length xs) = r_nit res /\ Z.of_nat (length fs) = r_nit res /\
        (r_nit res <= a_maxiter a)%Z /\
        Forall (fun rows : matrix => Z.of_nat (length rows) = Z.max 1 n) xs /\
        Forall (fun rows : vec => Z.of_nat (length rows) = Z.max 1 n) fs).
  Proof.
    intros HE Hx. destruct (pop_run_hist _ _ _ _ _ HE Hx) as (H & HH & it & q & r & cc & m & pop & Hh & Hm & _ & ->).
    cbn zeta. cbn [r_all r_nit]. pose proof (Hist_rec H c st' _ _ _ _ _ _ HH Hh) as Hr. split.
    - intros Hra. rewrite (ho_nout0 _ _ HH Hra) in Hr. exact Hr.
    - intros Hra. destruct (ho_nout1 _ _ HH Hra) as (n & Hn & Hc & Hmx). rewrite Hn in Hr.
      destruct Hr as (xs & fs & -> & H1 & H2 & H3 & H4 & H5 & H6).
      exists n, xs, fs. apply Hist_status in Hh. pose proof (ho_p _ _ HH). rewrite <- (ho_mx _ _ HH).
      split; [exact Hc|]. repeat split; auto; try lia.
      + eapply Forall_impl; [|exact H5]. cbn beta. intros; lia.
      + eapply Forall_impl; [|exact H6]. cbn beta. intros; lia.
  Qed.

  (** Consequently a run with return_all and maxiter <= 1, or verbosity * popsize rounding up to
      more than popsize, never returns a result. *)
  Theorem C18_no_result c w a0 res st' :
    EnvOK -> a_return_all (pop_args c) = true ->
    (a_maxiter (pop_args c) <= 1)%Z \/
    (forall n, nceilZ (nmul (a_verbosity (pop_args c)) (nZ (a_popsize (pop_args c)))) = Some n ->
               (a_popsize (pop_args c) < n)%Z) ->
    exec (pop_run c) w a0 <> (inl res, st').
  Proof.
    intros HE Hra Hor Hx. pose proof (C18_shape_population _ _ _ _ _ HE Hx) as [_ Hs].
    destruct (Hs Hra) as (n & xs & fs & Hn & Hle & _ & _ & _ & Hmx & _).
    pose proof (C01_nit_population _ _ _ _ _ HE Hx) as Hit.
    destruct Hor as [Hor|Hor]; [lia|]. specialize (Hor n Hn). lia.
  Qed.

  (** ** Rows *)
  Lemma in_combine_nth (view : vec -> vec) (X : matrix) (f : vec) p j :
    length X = p -> length f = p -> j < p ->
    In (view (nth j X []), nth j f n0) (combine (map view X) f).
  Proof.
    intros HX Hf Hj.
    replace (view (nth j X []), nth j f n0) with (nth j (combine (map view X) f) (view [], n0)).
    - apply nth_In. rewrite combine_length, map_length. lia.
    - rewrite combine_nth by (rewrite map_length; congruence). rewrite map_nth. reflexivity.
  Qed.

  Lemma argmin_lt_p (f : vec) p : length f = p -> 1 <= p -> argmin f < p.
  Proof. intros Hf Hp. rewrite <- Hf. apply argmin_lt. intros ->. cbn in Hf; lia. Qed.

  (** The rows recorded by pso/cpso/na, slice by slice. *)
  Lemma Hist_rec_cand c H (s : St) (it : Z) q xs fs st pop t :
    HistOf c H -> h_mode H <> Mpi ->
    match c with CallDE _ => False | _ => True end ->
    Hist H it q (Some (xs, fs)) st pop t ->
    RowsP (fun k x y => In ((if (k =? 0)%nat then h_view H x else x), y)
                           (chunk (h_p H) k (evals t))) xs fs.
  Proof.
    intros HH Hm Hc Hh. assert (HB : Between H (pop_comp c)) by exact (ho_B _ _ HH).
    pose proof (ho_p2 _ _ HH) as Hp2.
    remember (Some (xs, fs)) as r eqn:Hr. revert xs fs Hr.
    induction Hh as [X X' f evs r HX HX' Hf Hcb Hs Hev HC0 Hrec Xk HXk HXe q
                   |it q r pop t q1 q' st evs cand cf r' Hh IH Hb HG HC Hrec]; intros xs fs ->.
    - destruct (h_nout H) as [n|]; [|apply (RecW_noneN s) in Hrec; discriminate].
      cbn [rec0] in Hrec. apply (RecW_some s) in Hrec. destruct Hrec as (Hit & rows & frows & HR & Heq).
      injection Heq as -> ->.
      destruct (Hev Hm) as (-> & l & -> & Hl & _).
      apply (RowsP_snoc _ [] [] rows frows); [reflexivity|intros [|k]; discriminate|].
      assert (Hck : forall rr pp, chunk (h_p H) 0 (evals (map ok l ++ cbe H 1 q rr pp)) = l).
      { intros rr pp. destruct (cbe_evals H 1 q rr pp) as [H1 _].
        rewrite evals_app, evals_ok, H1, app_nil_r. unfold chunk. cbn [Nat.mul skipn].
        apply firstn_all2. rewrite (Permutation_length Hl), combine_length, map_length; lia. }
      cbn [length Nat.eqb]. rewrite Hck.
      refine (Rows_P H (fun x y => In (h_view H x, y) l) n X f _ rows frows Hp2 HX Hf HR _ _).
      + intros j Hj. apply (Permutation_in _ (Permutation_sym Hl)).
        apply (in_combine_nth _ _ _ (h_p H)); auto.
      + apply (Permutation_in _ (Permutation_sym Hl)).
        apply (in_combine_nth _ _ _ (h_p H)); auto. apply argmin_lt_p; [auto|lia].
    - pose proof (RecW_some s) as HRS.
      destruct (h_nout H) as [n|]; [|apply (RecW_noneN s) in Hrec; discriminate].
      pose proof (Hist_rec H c s _ _ _ _ _ _ HH Hh) as Hr0.
      destruct (h_nout H) as [n'|] eqn:Hno in Hr0.
      2: { subst r. unfold RecW in Hrec. specialize (Hrec s). cbn in Hrec. discriminate. }
      destruct Hr0 as (xs0 & fs0 & -> & Hl1 & Hl2 & _).
      apply HRS in Hrec. destruct Hrec as (Hit & rows & frows & HR & Heq). injection Heq as -> ->.
      specialize (IH xs0 fs0 eq_refl).
      destruct (gs_ev _ _ _ _ _ _ _ _ _ _ _ _ _ _ HG Hm) as (l & -> & Hl & _).
      pose proof (gs_len _ _ _ _ _ _ _ _ _ _ _ _ _ _ HG) as Hlc.
      pose proof (gs_lenf _ _ _ _ _ _ _ _ _ _ _ _ _ _ HG) as Hlf.
      match goal with |- context [cbe H ?a ?b ?e ?d] =>
        destruct (cbe_evals H a b e d) as [H1 _] end.
      rewrite !evals_app, H1, evals_ok, app_nil_r.
      destruct (Hist_evals H _ _ _ _ _ _ Hm Hh) as [Hlen _].
      pose proof (Hist_status _ _ _ _ _ _ _ Hh) as [Hit' _].
      assert (Hll : length l = h_p H)
        by (rewrite (Permutation_length Hl), combine_length, map_length; lia).
      assert (Hrc : length (h_recp H q' cand) = h_p H).
      { apply (recp_len H c); auto.
        pose proof (gen_next_len (h_sync H) (it + 1) (h_mx H) (h_xtol H) (h_ftol H) cand cf q1 (h_p H)
            Hlc Hlf (Between_len H _ _ _ _ HB Hb (Hist_len H _ _ _ _ _ _ _ HB Hh))) as Hgl.
        rewrite (gs_next _ _ _ _ _ _ _ _ _ _ _ _ _ _ HG) in Hgl. exact Hgl. }
      apply RowsP_snoc; [congruence| |].
      + eapply RowsP_impl; [|exact IH]. cbn beta. intros k x y Hk Hin.
        rewrite chunk_app_l; [exact Hin|]. rewrite Hlen. nia.
      + rewrite Hl1.
        destruct (Z.to_nat it =? 0)%nat eqn:Hz; [apply Nat.eqb_eq in Hz; lia|].
        rewrite chunk_app_r by (auto; lia).
        assert (Hin : forall j, j < h_p H -> In (nth j (h_recp H q' cand) [], nth j cf n0)
                                             (combine (map (h_view H) cand) cf)).
        { intros j' Hj'. pose proof (ho_rec _ _ HH) as Hrr. pose proof (ho_view _ _ HH) as Hv.
          pose proof (in_combine_nth (h_view H) cand cf (h_p H) j' Hlc Hlf Hj') as Hi.
          destruct c as [A|A|A|A]; destruct Hrr as (Hrp & _); rewrite Hrp; [tauto| | |].
          - rewrite Hv in *; exact Hi.
          - rewrite Hv in *; exact Hi.
          - rewrite (nth_indep _ [] (h_view H [])) by (rewrite map_length; unfold matrix in *; lia).
            rewrite map_nth. exact Hi. }
        refine (Rows_P H (fun x y => In (x, y) l) n (h_recp H q' cand) cf _ rows frows Hp2 Hrc Hlf HR _ _).
        * intros j Hj. apply (Permutation_in _ (Permutation_sym Hl)). apply Hin, Hj.
        * apply (Permutation_in _ (Permutation_sym Hl)).
          assert (Ha : argmin cf < h_p H) by (apply argmin_lt_p; [auto|lia]).
          specialize (Hin _ Ha).
          pose proof (ho_rec _ _ HH) as Hrr. pose proof (ho_view _ _ HH) as Hv.
          destruct c as [A|A|A|A]; destruct Hrr as (Hrp & Hrb & _); rewrite Hrb; [tauto| | |];
            rewrite Hrp in Hin; unfold best_row; cbn [fst snd].
          -- exact Hin.
          -- exact Hin.
          -- rewrite (nth_indep _ [] (h_view H [])) in Hin
               by (rewrite map_length; unfold matrix in *; lia).
             rewrite map_nth in Hin. exact Hin.
  Qed.

  (** C18 for pso and cpso: slice [k] holds points evaluated in iteration [k + 1], each with its
      own value. *)
  Theorem C18_rows_pso c w a0 res st' xs fs :
    EnvOK -> not_mpi c -> match c with CallCPSO _ | CallPSO _ => True | _ => False end ->
    exec (pop_run c) w a0 = (inl res, st') -> r_all res = Some (xs, fs) ->
    forall k rows frows, nth_error xs k = Some rows -> nth_error fs k = Some frows ->
    forall j, j < length rows ->
      In (nth j rows [], nth j frows n0)
         (chunk (Z.to_nat (a_popsize (pop_args c))) k (evals (tr st'))).
  Proof.
    intros HE Hnm Hc Hx Hr k rows frows H1 H2 j Hj.
    destruct (pop_run_hist _ _ _ _ _ HE Hx) as (H & HH & it & q & r & cc & m & pop & Hh & Hm & _ & ->).
    cbn in Hr. subst r. rewrite (pop_p _ _ HH).
    assert (Hc' : match c with CallDE _ => False | _ => True end) by (destruct c; auto).
    pose proof (Hist_rec_cand c H st' _ _ _ _ _ _ _ HH (not_mpi_mode _ _ Hnm HH) Hc' Hh k rows frows H1 H2 j Hj) as Hi.
    cbn beta in Hi. pose proof (ho_view _ _ HH) as Hv.
    destruct c; try tauto; rewrite Hv in Hi; destruct (k =? 0); exact Hi.
  Qed.

  (** C19 for na: the first slice holds the points in normalised coordinates, the others in model
      coordinates. *)
  Theorem C19_na_rows A w a0 res st' xs fs bnds :
    EnvOK -> not_mpi (CallNA A) -> a_bounds (naa A) = D2 2 bnds ->
    exec (na_minimize A) w a0 = (inl res, st') -> r_all res = Some (xs, fs) ->
    forall k rows frows, nth_error xs k = Some rows -> nth_error fs k = Some frows ->
    forall j, j < length rows ->
      let un := unnormalize (map (fun r => nth 0 r n0) bnds) (map (fun r => nth 1 r n0) bnds) in
      In ((if (k =? 0)%nat then un (nth j rows []) else nth j rows []), nth j frows n0)
         (chunk (Z.to_nat (a_popsize (naa A))) k (evals (tr st'))).
  Proof.
    intros HE Hnm Hbd Hx Hr k rows frows H1 H2 j Hj.
    destruct (pop_run_hist (CallNA A) _ _ _ _ HE Hx) as (H & HH & it & q & r & cc & m & pop & Hh & Hm & _ & ->).
    cbn in Hr. subst r. change (naa A) with (pop_args (CallNA A)) at 1. rewrite (pop_p (CallNA A) _ HH).
    pose proof (Hist_rec_cand (CallNA A) H st' _ _ _ _ _ _ _ HH (not_mpi_mode _ _ Hnm HH) Logic.I Hh k rows frows H1 H2 j Hj) as Hi.
    cbn beta in Hi. destruct (ho_view _ _ HH) as (rows' & Hb & Hv). rewrite Hbd in Hb. injection Hb as <-.
    rewrite Hv in Hi. exact Hi.
  Qed.

  (** ** C24 *)
  Theorem C24_unchanged c w a0 res st' x0 :
    EnvOK -> not_mpi c -> a_x0 (pop_args c) = Some x0 -> a_x0_array (pop_args c) = true ->
    a0 = Some (nd_rows x0) ->
    match c with CallDE _ => False | CallNA _ => True | _ => pop_sync c = true end ->
    exec (pop_run c) w a0 = (inl res, st') -> argbuf st' = Some (nd_rows x0).
  Proof.
    intros HE Hnm Hx0 Harr Ha0 Hc Hx.
    destruct (pop_run_hist _ _ _ _ _ HE Hx) as (H & HH & it & q & r & cc & m & pop & Hh & Hm & Harg & ->).
    pose proof (not_mpi_mode _ _ Hnm HH) as Hmode.
    unfold ArgAfter in Harg. rewrite Hx0, Harr in Harg.
    destruct c; try tauto; try (rewrite Hc in Harg; cbn in Harg; apply Harg, Hmode).
    rewrite <- Ha0. exact Harg.
  Qed.

  (** de and immediate cpso/pso leave their last population in the caller's array: what the last
      callback received.  Its rows are points that were evaluated in this run. *)
  Theorem C24_overwritten c w a0 res st' x0 :
    EnvOK -> not_mpi c -> a_x0 (pop_args c) = Some x0 -> a_x0_array (pop_args c) = true ->
    match c with CallDE _ => True | CallNA _ => False | _ => pop_sync c = false end ->
    exec (pop_run c) w a0 = (inl res, st') ->
    exists pop, argbuf st' = Some pop /\ Z.of_nat (length pop) = a_popsize (pop_args c) /\
      (a_callback (pop_args c) = CbFun -> exists t1 s, tr st' = t1 ++ [ECb pop s None]) /\
      (match c with CallDE _ => False | _ => True end ->
       Forall (fun x => exists y,
           In (x, y) (chunk (Z.to_nat (a_popsize (pop_args c))) (Z.to_nat (r_nit res) - 1)
                            (evals (tr st')))) pop).
  Proof.
    intros HE Hnm Hx0 Harr Hc Hx.
    destruct (pop_run_hist _ _ _ _ _ HE Hx) as (H & HH & it & q & r & cc & m & pop & Hh & Hm & Harg & ->).
    pose proof (not_mpi_mode _ _ Hnm HH) as Hmode. exists pop. split; [|split; [|split]].
    - unfold ArgAfter in Harg. rewrite Hx0, Harr in Harg.
      destruct c; try tauto; try (rewrite Hc in Harg; exact Harg); exact Harg.
    - rewrite <- (ho_p _ _ HH). f_equal.
      inversion Hh as [|it0 q0 r0 pop0 t0 q1 q' st evs cand cf r' Hh0 Hb HG HC Hrec]; subst.
      assert (HB : Between H (pop_comp c)) by exact (ho_B _ _ HH).
      destruct (Hist_len H _ _ _ _ _ _ _ HB Hh) as [Hlq _].
      pose proof (gs_len _ _ _ _ _ _ _ _ _ _ _ _ _ _ HG) as Hlc.
      pose proof (ho_rec _ _ HH) as Hrr.
      destruct c; try tauto; destruct Hrr as (_ & _ & _ & ->); assumption.
    - intros Hcb. assert (Hcbt : h_cb H = true)
        by (rewrite (ho_cb _ _ HH); unfold has_cb; rewrite Hcb; reflexivity).
      destruct (Hist_last H _ _ _ _ _ _ Hh Hcbt) as [t1 Ht]. eauto.
    - intros Hnde. cbn [r_nit].
      inversion Hh as [|it0 q0 r0 pop0 t0 q1 q' st evs cand cf r' Hh0 Hb HG HC Hrec]; subst.
      pose proof (Hist_status _ _ _ _ _ _ _ Hh0) as [Hit' _].
      destruct (Hist_evals H _ _ _ _ _ _ Hmode Hh0) as [Hlen _].
      destruct (gs_ev _ _ _ _ _ _ _ _ _ _ _ _ _ _ HG Hmode) as (l & -> & Hl & _).
      pose proof (gs_len _ _ _ _ _ _ _ _ _ _ _ _ _ _ HG) as Hlc.
      pose proof (gs_lenf _ _ _ _ _ _ _ _ _ _ _ _ _ _ HG) as Hlf.
      destruct (cbe_evals H (it0 + 1) q r (h_pop H q cand)) as [H1 _].
      rewrite !evals_app, H1, evals_ok, app_nil_r, (pop_p _ _ HH).
      replace (Z.to_nat (it0 + 1) - 1) with (Z.to_nat it0) by lia.
      rewrite chunk_app_r; [|exact Hlen|rewrite (Permutation_length Hl), combine_length, map_length; lia].
      assert (Hpop : h_pop H q cand = cand /\ h_view H = fun x => x).
      { pose proof (ho_rec _ _ HH) as Hrr. pose proof (ho_view _ _ HH) as Hv.
        destruct c; try tauto; destruct Hrr as (_ & _ & _ & ->); auto. }
      destruct Hpop as [-> Hv]. apply (Forall_nth' _ _ ([] : vec)). intros j Hj.
      exists (nth j cf n0). apply (Permutation_in _ (Permutation_sym Hl)).
      pose proof (in_combine_nth (h_view H) cand cf (h_p H) j Hlc Hlf) as Hi.
      rewrite Hv in Hi |- *. apply Hi. unfold matrix in *; lia.
  Qed.
End PropRec.

Section PropRecDE.
  Context {N : Num} {E : Env N} {L : OrdLaws num_arith}.

  (** ** C19 for de: the recorded value is the trial's, the recorded point the kept one. *)
  Lemma async1_other xtol ftol i c cf q j :
    i <> j -> nth j (qf (fst (async1 xtol ftol i c cf q))) n0 = nth j (qf q) n0.
  Proof.
    intros Hij. unfold async1, async_sel.
    destruct (nleb cf (nth i (qf q) n0)); [destruct (nleb cf (qbf q))|]; cbn;
      rewrite ?upd_nth_other by exact Hij; reflexivity.
  Qed.
  Lemma asyncs_other xtol ftol l : forall i q st j,
    j < i -> nth j (qf (fst (asyncs xtol ftol i l q st))) n0 = nth j (qf q) n0.
  Proof.
    induction l as [|[c f] l IH]; intros i q st j Hj; [reflexivity|].
    cbn [asyncs]. cbn zeta. rewrite IH by lia. apply async1_other. lia.
  Qed.
  Lemma asyncs_row xtol ftol p l : forall i q st,
    length (qf q) = p -> (forall j, j < p -> isnum (nth j (qf q) n0)) -> i + length l <= p ->
    forall k c f, nth_error l k = Some (c, f) -> isnum f ->
      nleb (nth (i + k) (qf (fst (asyncs xtol ftol i l q st))) n0) f = true.
  Proof.
    induction l as [|[c0 f0] l IH]; intros i q st Hl Hn Hi k c f Hk Hf; [destruct k; discriminate|].
    cbn [length] in Hi. cbn [asyncs]. cbn zeta.
    assert (Hl' : length (qf (fst (async1 xtol ftol i c0 f0 q))) = p).
    { unfold async1, async_sel.
      destruct (nleb f0 (nth i (qf q) n0)); [destruct (nleb f0 (qbf q))|]; cbn;
        rewrite ?upd_length; auto. }
    destruct k as [|k]; cbn in Hk.
    - injection Hk as -> ->. rewrite Nat.add_0_r, asyncs_other by lia.
      unfold async1, async_sel. destruct (nleb f (nth i (qf q) n0)) eqn:Hc.
      + destruct (nleb f (qbf q)); cbn; rewrite upd_nth_same by lia; exact Hf.
      + cbn. apply ol_lt_le, nle_lt; auto. apply Hn; lia.
    - replace (i + S k) with (S i + k) by lia. apply (IH (S i) _ _ Hl') with (c := c); auto; [|lia].
      intros j Hj. unfold async1, async_sel. destruct (nleb f0 (nth i (qf q) n0)) eqn:Hc.
      + assert (Hf0 : isnum f0) by (eapply le_num_l; exact Hc).
        assert (Hu : isnum (nth j (upd i f0 (qf q)) n0)).
        { destruct (Nat.eq_dec i j) as [->|Hij].
          - rewrite upd_nth_same by lia. exact Hf0.
          - rewrite upd_nth_other by exact Hij. auto. }
        destruct (nleb f0 (qbf q)); exact Hu.
      + apply Hn, Hj.
  Qed.

  Lemma gen_row sync it mx xtol ftol p cand cf q :
    length cand = p -> length cf = p -> QLen p q ->
    (forall j, j < p -> isnum (nth j (qf q) n0)) ->
    forall j, j < p -> isnum (nth j cf n0) ->
      nleb (nth j (qf (fst (gen_next sync it mx xtol ftol cand cf q))) n0) (nth j cf n0) = true.
  Proof.
    intros Hc Hf [Hx Hq] Hn j Hj Hnum. destruct sync; cbn [gen_next].
    - cbn. rewrite (sel_fun_nth cf (qf q) j p) by auto.
      destruct (nltb (nth j cf n0) (nth j (qf q) n0)) eqn:Hlt; [exact Hnum|].
      apply nlt_le; auto.
    - cbn zeta. cbn [fst].
      apply (asyncs_row xtol ftol p (combine cand cf) 0 q None Hq Hn) with (c := nth j cand []).
      + rewrite combine_length; lia.
      + rewrite (nth_error_nth' _ _ (([] : vec), n0)) by (rewrite combine_length; lia).
        f_equal. apply combine_nth. congruence.
      + exact Hnum.
  Qed.

  Lemma Hist_rec_de A H (s : St) (it : Z) q xs fs st pop t :
    HistOf (CallDE A) H -> h_mode H <> Mpi ->
    Hist H it q (Some (xs, fs)) st pop t -> InitNum H t ->
    RowsP (fun k x y => isnum y -> exists y', In (x, y') (evals t) /\ nleb y' y = true) xs fs.
  Proof.
    intros HH Hm Hh. assert (HB : Between H false) by exact (ho_B _ _ HH).
    pose proof (ho_p2 _ _ HH) as Hp2. pose proof (ho_view _ _ HH) as Hv. cbn in Hv.
    remember (Some (xs, fs)) as r eqn:Hr. revert xs fs Hr.
    induction Hh as [X X' f evs r HX HX' Hf Hcb Hs Hev HC0 Hrec Xk HXk HXe q
                   |it q r pop t q1 q' st evs cand cf r' Hh IH Hb HG HC Hrec]; intros xs fs -> HI.
    - destruct (h_nout H) as [n|]; [|apply (RecW_noneN s) in Hrec; discriminate].
      cbn [rec0] in Hrec. apply (RecW_some s) in Hrec. destruct Hrec as (Hit & rows & frows & HR & Heq).
      injection Heq as -> ->.
      destruct (Hev Hm) as (-> & l & -> & Hl & _).
      assert (Hck : forall rr pp, evals (map ok l ++ cbe H 1 q rr pp) = l).
      { intros rr pp. destruct (cbe_evals H 1 q rr pp) as [H1 _].
        rewrite evals_app, evals_ok, H1, app_nil_r. reflexivity. }
      apply (RowsP_snoc _ [] [] rows frows); [reflexivity|intros [|k]; discriminate|].
      cbn [length Nat.eqb]. rewrite Hck.
      assert (Hin : forall j, j < h_p H -> In (nth j X [], nth j f n0) l).
      { intros j Hj. apply (Permutation_in _ (Permutation_sym Hl)).
        pose proof (in_combine_nth (h_view H) X f (h_p H) j HX Hf Hj) as Hi.
        rewrite Hv in Hi |- *. exact Hi. }
      refine (Rows_P H (fun x y => isnum y -> exists y', In (x, y') l /\ nleb y' y = true)
                     n X f _ rows frows Hp2 HX Hf HR _ _).
      + intros j Hj Hn. exists (nth j f n0). split; [apply Hin, Hj|exact Hn].
      + intros Hn. exists (nth (argmin f) f n0). split; [|exact Hn].
        apply Hin, argmin_lt_p; [auto|lia].
    - pose proof (RecW_some s) as HRS.
      assert (Hfirst : InitNum H t).
      { destruct (Hist_evals H _ _ _ _ _ _ Hm Hh) as [Hlen _].
        pose proof (Hist_status _ _ _ _ _ _ _ Hh) as [Hit' _].
        unfold InitNum in *. rewrite !evals_app in HI. rewrite firstn_evals_app in HI by nia. exact HI. }
      pose proof (Hist_step H _ _ _ _ _ _ _ _ _ _ _ _ Hh Hb HG HC Hrec) as Hh'.
      assert (Inv' : BInv false (h_view H) (h_p H) q' (evals (t ++ evs ++
                 cbe H (it + 1) q' (Some (xs, fs)) (h_pop H q' cand)))).
      { apply (Hist_BInv H false _ _ _ _ _ _ Hm ltac:(lia) HB ltac:(discriminate) Hh' HI).
        intros Hc; discriminate. }
      assert (Inv0 : BInv false (h_view H) (h_p H) q (evals t)).
      { apply (Hist_BInv H false _ _ _ _ _ _ Hm ltac:(lia) HB ltac:(discriminate) Hh Hfirst).
        intros Hc; discriminate. }
      destruct (h_nout H) as [n|]; [|apply (RecW_noneN s) in Hrec; discriminate].
      pose proof (Hist_rec H (CallDE A) s _ _ _ _ _ _ HH Hh) as Hr0.
      destruct (h_nout H) as [n'|] eqn:Hno in Hr0.
      2: { subst r. unfold RecW in Hrec. specialize (Hrec s). cbn in Hrec. discriminate. }
      destruct Hr0 as (xs0 & fs0 & -> & Hl1 & Hl2 & _).
      apply HRS in Hrec. destruct Hrec as (Hit & rows & frows & HR & Heq). injection Heq as -> ->.
      specialize (IH xs0 fs0 eq_refl Hfirst).
      pose proof (gs_len _ _ _ _ _ _ _ _ _ _ _ _ _ _ HG) as Hlc.
      pose proof (gs_lenf _ _ _ _ _ _ _ _ _ _ _ _ _ _ HG) as Hlf.
      assert (q1 = q) by (destruct (HB _ _ _ Hb) as [->|[Hcc _]]; [reflexivity|discriminate]). subst q1.
      apply RowsP_snoc; [congruence| |].
      + eapply RowsP_impl; [|exact IH]. cbn beta. intros k x y _ Hex Hn.
        destruct (Hex Hn) as (y' & Hy & Hle). exists y'. split; [|exact Hle].
        rewrite evals_app. apply in_or_app; auto.
      + assert (Hrow : forall j, j < h_p H -> isnum (nth j cf n0) -> exists y',
            In (nth j (qx q') [], y') (evals (t ++ evs ++
                 cbe H (it + 1) q' (Some (xs0 ++ [rows], fs0 ++ [frows])) (h_pop H q' cand))) /\
            nleb y' (nth j cf n0) = true).
        { intros j Hj Hn. exists (nth j (qf q') n0). split.
          - destruct (bi_real _ _ _ _ _ Inv' j Hj) as [Hi|[Hi _]]; [|discriminate].
            rewrite Hv in Hi. exact Hi.
          - pose proof (gen_row (h_sync H) (it + 1) (h_mx H) (h_xtol H) (h_ftol H) (h_p H) cand cf q
               Hlc Hlf (conj (bi_lx _ _ _ _ _ Inv0) (bi_lf _ _ _ _ _ Inv0)) (bi_num _ _ _ _ _ Inv0)
               j Hj Hn) as Hg.
            rewrite (gs_next _ _ _ _ _ _ _ _ _ _ _ _ _ _ HG) in Hg. exact Hg. }
        destruct (ho_rec _ _ HH) as (Hrp & Hrb & _). rewrite Hrp, Hrb in HR.
        refine (Rows_P H (fun x y => isnum y -> exists y', In (x, y') _ /\ nleb y' y = true)
                     n (qx q') cf _ rows frows Hp2 (bi_lx _ _ _ _ _ Inv') Hlf HR _ _).
        * intros j Hj Hn. apply (Hrow j Hj Hn).
        * unfold best_row. cbn [fst snd]. intros Hn. apply (Hrow (argmin cf)); [|exact Hn].
          apply argmin_lt_p; [auto|lia].
  Qed.

  Theorem C19_de_rows A w a0 res st' xs fs :
    EnvOK -> not_mpi (CallDE A) -> exec (de_minimize A) w a0 = (inl res, st') ->
    InitialNumeric (CallDE A) (tr st') -> r_all res = Some (xs, fs) ->
    forall k rows frows, nth_error xs k = Some rows -> nth_error fs k = Some frows ->
    forall j, j < length rows -> isnum (nth j frows n0) ->
      exists y, In (nth j rows [], y) (evals (tr st')) /\ nleb y (nth j frows n0) = true.
  Proof.
    intros HE Hnm Hx HI Hr k rows frows H1 H2 j Hj Hn.
    destruct (pop_run_hist (CallDE A) _ _ _ _ HE Hx) as (H & HH & it & q & r & cc & m & pop & Hh & Hm & _ & ->).
    cbn in Hr. subst r. unfold InitialNumeric in HI. rewrite (pop_p _ _ HH) in HI.
    exact (Hist_rec_de A H st' _ _ _ _ _ _ _ HH (not_mpi_mode _ _ Hnm HH) Hh HI k rows frows H1 H2 j Hj Hn).
  Qed.
End PropRecDE.
