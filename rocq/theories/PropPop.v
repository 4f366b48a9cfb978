(** C01-C09, C18, C19, C24 for the population methods (de, cpso, pso, na). *)
From Verif Require Import Base Num Env Common DE CPSO NA Hoare EvalRules Gen Steps Hist Runs Best
  Inst HistFacts HistBest.

Section PropPop.
  Context {N : Num} {E : Env N}.

  Definition not_mpi (c : PopCall) : Prop := a_backend (pop_args c) <> Some "mpi"%string.

  Lemma not_mpi_mode c H : not_mpi c -> HistOf c H -> h_mode H <> Mpi.
  Proof.
    intros Hn HH Hm. pose proof (ho_mode _ _ HH) as Hk. rewrite Hm in Hk. apply Hn.
    unfold eval_kind, wrapper_kind in Hk.
    set (b := match a_backend (pop_args c) with
              | Some b => if String.eqb b "" then "threading"%string else b
              | None => "threading"%string end) in *.
    assert (Hb : b = "mpi"%string).
    { destruct (in_prefer b && _); destruct (pop_sync c); try discriminate.
      - destruct (in_prefer b); [discriminate|].
        destruct (String.eqb b "mpi") eqn:Hb; [apply String.eqb_eq, Hb|discriminate].
      - destruct (String.eqb b "mpi") eqn:Hb; [apply String.eqb_eq, Hb|discriminate]. }
    unfold b in Hb. destruct (a_backend (pop_args c)) as [b0|]; [|discriminate].
    destruct (String.eqb b0 ""); [discriminate|congruence].
  Qed.

  Lemma async_serial c H : HistOf c H -> pop_sync c = false -> h_mode H = Serial.
  Proof. intros HH Hs. apply (eval_kind_async _ _ _ _ (ho_mode _ _ HH) Hs). Qed.

  (** ** C01 *)

  (** No run of de, cpso, pso, na is an infinite loop: the model's loop never uses up its fuel of
      max(0, maxiter) + 2 rounds, whatever the objective, the callback and the generator do. *)
  Theorem C01_terminates_population c w a0 st' :
    EnvOK -> exec (pop_run c) w a0 <> (inr OutOfFuel, st').
  Proof.
    intros HE Hx. pose proof (wp_elim_exn _ _ _ _ _ _ (pop_run_spec c w a0 HE) Hx) as Hn.
    exact (Hn eq_refl).
  Qed.

  Lemma Hist_it_bound H it q r c pop t :
    Hist H it q r (Some c) pop t -> (2 <= it <= Z.max 2 (h_mx H))%Z.
  Proof.
    intros Hh.
    inversion Hh as [|it0 q0 r0 pop0 t0 q1 q' st evs cand cf r' Hh0 Hb HG HC Hrec]; subst.
    apply Hist_status in Hh0. lia.
  Qed.

  Theorem C01_nit_population c w a0 res st' :
    EnvOK -> exec (pop_run c) w a0 = (inl res, st') ->
    (2 <= r_nit res <= Z.max 2 (a_maxiter (pop_args c)))%Z.
  Proof.
    intros HE Hx. destruct (pop_run_hist _ _ _ _ _ HE Hx) as (H & HH & it & q & r & cc & m & pop & Hh & _ & _ & ->).
    cbn. rewrite <- (ho_mx _ _ HH). apply (Hist_it_bound _ _ _ _ _ _ _ Hh).
  Qed.

  (** The lower bound is reached: with maxiter <= 2 (also 1, 0 or negative) exactly two
      iterations are done. *)
  Theorem C01_small_maxiter c w a0 res st' :
    EnvOK -> exec (pop_run c) w a0 = (inl res, st') ->
    (a_maxiter (pop_args c) <= 2)%Z -> r_nit res = 2%Z.
  Proof. intros HE Hx Hm. pose proof (C01_nit_population _ _ _ _ _ HE Hx). lia. Qed.

  (** ** C02 *)
  Theorem C02_nfev_population c w a0 res st' :
    EnvOK -> not_mpi c -> exec (pop_run c) w a0 = (inl res, st') ->
    r_nfev res = Z.of_nat (ncalls (tr st')) /\
    r_nfev res = (r_nit res * a_popsize (pop_args c))%Z /\
    length (evals (tr st')) = ncalls (tr st').
  Proof.
    intros HE Hnm Hx. destruct (pop_run_hist _ _ _ _ _ HE Hx) as (H & HH & it & q & r & cc & m & pop & Hh & _ & _ & ->).
    cbn. destruct (Hist_evals H _ _ _ _ _ _ (not_mpi_mode _ _ Hnm HH) Hh) as [H1 H2].
    rewrite H1, H2, <- (ho_p _ _ HH). apply Hist_status in Hh. nia.
  Qed.

  (** ** C03 *)
  Theorem C03_callbacks_population c w a0 res st' :
    EnvOK -> exec (pop_run c) w a0 = (inl res, st') ->
    let t := tr st' in
    (a_callback (pop_args c) <> CbFun -> cbs t = []) /\
    (a_callback (pop_args c) = CbFun ->
      Z.of_nat (length (cbs t)) = r_nit res /\
      (* the k-th call *)
      (forall k X s, nth_error (cbs t) k = Some (X, s) ->
          cb_nit s = Z.of_nat (S k) /\ cb_nfev s = (cb_nit s * a_popsize (pop_args c))%Z) /\
      (* the objective calls made before it *)
      (not_mpi c -> forall t1 X s e t2, t = t1 ++ ECb X s e :: t2 ->
          cb_nfev s = Z.of_nat (ncalls t1)) /\
      (* the last event of the run is the last call, and it carries the result *)
      exists t1 X s, t = t1 ++ [ECb X s None] /\
        cb_x s = r_x res /\ cb_fun s = r_fun res /\ cb_nfev s = r_nfev res /\
        cb_nit s = r_nit res /\ cb_all s = r_all res).
  Proof.
    intros HE Hx. destruct (pop_run_hist _ _ _ _ _ HE Hx) as (H & HH & it & q & r & cc & m & pop & Hh & _ & _ & ->).
    cbn zeta. pose proof (Hist_cbs_len H _ _ _ _ _ _ Hh) as Hl. pose proof (ho_cb _ _ HH) as Hcb.
    pose proof (Hist_status _ _ _ _ _ _ _ Hh) as [Hit _].
    split.
    - intros Hc. rewrite Hcb in Hl. unfold has_cb in Hl.
      destruct (a_callback (pop_args c)); try congruence; apply length_zero_iff_nil; exact Hl.
    - intros Hc. assert (Hcbt : h_cb H = true) by (rewrite Hcb; unfold has_cb; rewrite Hc; reflexivity).
      rewrite Hcbt in Hl. cbn. split; [lia|]. split; [|split].
      + intros k X s Hk. destruct (cbs_split _ _ _ _ Hk) as (t1 & e & t2 & Ht & Hlt & _).
        assert (Hg : exists it' q' r' st0 t', Hist H it' q' r' st0 X t' /\ t' = t1 ++ [ECb X s e] /\
                       s = h_state H it' q' r').
        { destruct (Hist_cb_at H _ _ _ _ _ _ Hh _ _ _ _ _ Ht) as [(-> & -> & -> & ->)|(i & q' & r' & I1 & _ & -> & ->)].
          - exists it, q, r, (Some cc), (tr st'). auto.
          - exists i, q', r', None, (t1 ++ [ECb X (h_state H i q' r') None]). auto. }
        destruct Hg as (it' & q' & r' & st0 & t' & Hh' & -> & ->).
        pose proof (Hist_cbs_len H _ _ _ _ _ _ Hh') as Hl'. rewrite Hcbt, cbs_app, app_length in Hl'.
        pose proof (Hist_status _ _ _ _ _ _ _ Hh') as [Hit' _].
        cbn in Hl' |- *. rewrite <- (ho_p _ _ HH). lia.
      + intros Hnm t1 X s e t2 Ht.
        destruct (Hist_prefix_evals H _ _ _ _ _ _ _ _ _ _ _ (not_mpi_mode _ _ Hnm HH) Hh Ht) as [Hn _].
        rewrite Hn.
        assert (Hs : exists i q' r', s = h_state H i q' r' /\ (1 <= i)%Z).
        { destruct (Hist_cb_at H _ _ _ _ _ _ Hh _ _ _ _ _ Ht) as [(_ & -> & _)|(i & q' & r' & _ & I2 & -> & _)].
          - exists it, q, r; auto.
          - exists i, q', r'; split; [reflexivity|lia]. }
        destruct Hs as (i & q' & r' & -> & Hi). cbn. nia.
      + destruct (Hist_last H _ _ _ _ _ _ Hh Hcbt) as [t1 Ht].
        exists t1, pop, (h_state H it q r). cbn. auto 10.
  Qed.

  (** ** C04 *)
  Theorem C04_status_population c w a0 res st' :
    EnvOK -> exec (pop_run c) w a0 = (inl res, st') ->
    (r_success res = true <-> (0 <= r_status res)%Z) /\
    (r_status res = 0%Z /\ r_message res = "best solution changes less than xtol"%string /\
       nleb (r_fun res) (a_ftol (pop_args c)) = true
     \/ r_status res = 1%Z /\ r_message res = "best solution value is lower than ftol"%string /\
       nleb (r_fun res) (a_ftol (pop_args c)) = true
     \/ r_status res = (-1)%Z /\ r_message res = "maximum number of iterations is reached"%string /\
       (a_maxiter (pop_args c) <= r_nit res)%Z).
  Proof.
    intros HE Hx. destruct (pop_run_hist _ _ _ _ _ HE Hx) as (H & HH & it & q & r & cc & m & pop & Hh & Hm & _ & ->).
    cbn. split; [symmetry; split; intros; [apply Z.leb_le|apply Z.leb_le]; assumption|].
    pose proof (Hist_stop H _ _ _ _ _ _ Hh) as Hs.
    rewrite <- (ho_ftol _ _ HH), <- (ho_mx _ _ HH).
    destruct Hs as [[[->| ->] Hs]|[-> Hs]]; cbn in Hm; injection Hm as <-; auto.
  Qed.

  (** [status 0] in deferred mode: the best point of the last iteration is within xtol of the one
      of the iteration before (na measures this in normalised coordinates [b1], [b2]). *)
  Theorem C04_xtol_deferred c w a0 res st' :
    EnvOK -> exec (pop_run c) w a0 = (inl res, st') ->
    pop_sync c = true -> pop_comp c = false -> a_callback (pop_args c) = CbFun ->
    r_status res = 0%Z ->
    exists l X1 s1 X2 s2, cbs (tr st') = l ++ [(X1, s1); (X2, s2)] /\ cb_x s2 = r_x res /\
      exists b1 b2, nleb (vnorm (vsub b1 b2)) (a_xtol (pop_args c)) = true /\
      match c with
      | CallNA A => exists rows, a_bounds (naa A) = D2 2 rows /\
          let un := unnormalize (map (fun r => nth 0 r n0) rows) (map (fun r => nth 1 r n0) rows) in
          cb_x s1 = un b1 /\ cb_x s2 = un b2
      | _ => cb_x s1 = b1 /\ cb_x s2 = b2
      end.
  Proof.
    intros HE Hx Hsy Hcm Hcf Hst.
    destruct (pop_run_hist _ _ _ _ _ HE Hx) as (H & HH & it & q & r & cc & m & pop & Hh & Hm & _ & ->).
    cbn in Hst |- *. subst cc.
    assert (Hcbt : h_cb H = true) by (rewrite (ho_cb _ _ HH); unfold has_cb; rewrite Hcf; reflexivity).
    inversion Hh as [|it0 q0 r0 pop0 t0 q1 q' st evs cand cf r' Hh0 Hb HG HC Hrec]; subst.
    assert (q1 = q0).
    { destruct (ho_B _ _ HH _ _ _ Hb) as [->|[Hcc _]]; [reflexivity|congruence]. }
    subst q1.
    pose proof (gs_next _ _ _ _ _ _ _ _ _ _ _ _ _ _ HG) as Hn.
    rewrite (ho_sync _ _ HH), Hsy in Hn. apply sync_gen_status in Hn.
    destruct Hn as [(_ & Hn & _)|[(Hc & _)|(Hc & _)]]; try discriminate.
    destruct (Hist_last H _ _ _ _ _ _ Hh0 Hcbt) as [t1 Ht1].
    exists (cbs t1), pop0, (h_state H it0 q0 r0), (h_pop H q cand), (h_state H (it0 + 1) q r).
    split; [|split; [reflexivity|]].
    - rewrite !cbs_app, (gs_cbs _ _ _ _ _ _ _ _ _ _ _ _ _ _ HG), Ht1, cbs_app.
      unfold cbe. rewrite Hcbt. cbn. rewrite <- app_assoc. reflexivity.
    - exists (qb q0), (qb q). rewrite <- (ho_xtol _ _ HH). split; [exact Hn|].
      pose proof (ho_view _ _ HH) as Hv. unfold h_state; cbn.
      destruct c; try (rewrite Hv; auto; fail).
      destruct Hv as (rows & Hbd & Hv). exists rows. rewrite Hv. auto.
  Qed.
End PropPop.

Section PropPopOrd.
  Context {N : Num} {E : Env N} {L : OrdLaws num_arith}.

  (** The objective's values at the initial population are numbers (not NaN). *)
  Definition InitialNumeric (c : PopCall) (t : list event) : Prop :=
    Forall (fun z => isnum (snd z)) (firstn (Z.to_nat (a_popsize (pop_args c))) (evals t)).

  (** Needed for cpso with competitivity only: the numeric values are below the marker 1e30. *)
  Definition BelowMarker (c : PopCall) (t : list event) : Prop :=
    pop_comp c = true ->
    RestartLaw (Z.to_nat (a_popsize (pop_args c))) /\ isnum (nlit 1 30) /\
    forall x y, In (x, y) (evals t) -> isnum y -> nltb y (nlit 1 30) = true.

  Lemma pop_p c H : HistOf c H -> Z.to_nat (a_popsize (pop_args c)) = h_p H.
  Proof. intros HH. rewrite <- (ho_p _ _ HH). apply Nat2Z.id. Qed.

  Lemma pop_BInv c H it q r st pop t :
    EnvOK -> not_mpi c -> HistOf c H -> Hist H it q r st pop t ->
    InitialNumeric c t -> BelowMarker c t ->
    BInv (pop_comp c) (h_view H) (h_p H) q (evals t).
  Proof.
    intros HE Hnm HH Hh Hi Hb. unfold InitialNumeric, BelowMarker in *.
    rewrite (pop_p _ _ HH) in Hi, Hb.
    apply (Hist_BInv H (pop_comp c) it q r st pop); auto.
    - apply (not_mpi_mode _ _ Hnm HH).
    - pose proof (ho_p2 _ _ HH); lia.
    - exact (ho_B _ _ HH).
    - intros Hc. destruct (Hb Hc) as (H1 & H2 & _). split; [apply HE|auto].
    - intros Hc. apply Hb, Hc.
  Qed.

  (** ** C05 *)
  Theorem C05_best_population c w a0 res st' :
    EnvOK -> not_mpi c -> exec (pop_run c) w a0 = (inl res, st') ->
    InitialNumeric c (tr st') -> BelowMarker c (tr st') ->
    In (r_x res, r_fun res) (evals (tr st')) /\ isnum (r_fun res) /\
    forall x y, In (x, y) (evals (tr st')) -> isnum y -> nleb (r_fun res) y = true.
  Proof.
    intros HE Hnm Hx Hi Hb.
    destruct (pop_run_hist _ _ _ _ _ HE Hx) as (H & HH & it & q & r & cc & m & pop & Hh & Hm & _ & ->).
    cbn. pose proof (pop_BInv _ _ _ _ _ _ _ _ HE Hnm HH Hh Hi Hb) as I.
    split; [apply (bi_best _ _ _ _ _ I)|]. split; [apply (bi_bnum _ _ _ _ _ I)|].
    apply (bi_min _ _ _ _ _ I).
  Qed.

  (** ** C06 *)
  Theorem C06_monotone_population c w a0 res st' :
    EnvOK -> not_mpi c -> exec (pop_run c) w a0 = (inl res, st') ->
    InitialNumeric c (tr st') -> BelowMarker c (tr st') ->
    forall i j Xi si Xj sj, i <= j ->
      nth_error (cbs (tr st')) i = Some (Xi, si) -> nth_error (cbs (tr st')) j = Some (Xj, sj) ->
      nleb (cb_fun sj) (cb_fun si) = true.
  Proof.
    intros HE Hnm Hx Hi Hb i j Xi si Xj sj Hij Hci Hcj.
    destruct (pop_run_hist _ _ _ _ _ HE Hx) as (H & HH & it & q & r & cc & m & pop & Hh & Hm & _ & ->).
    destruct (cbs_split _ _ _ _ Hcj) as (t1 & e & t2 & Ht & Hlt & Hcbs).
    pose proof (not_mpi_mode _ _ Hnm HH) as Hmode.
    assert (Hg : exists it' q' r' st0, Hist H it' q' r' st0 Xj (t1 ++ [ECb Xj sj e]) /\
                   sj = h_state H it' q' r').
    { destruct (Hist_cb_at H _ _ _ _ _ _ Hh _ _ _ _ _ Ht) as [(-> & -> & -> & ->)|(k & q' & r' & I1 & _ & -> & ->)].
      - exists it, q, r, (Some cc). rewrite <- Ht. auto.
      - exists k, q', r', None. auto. }
    destruct Hg as (it' & q' & r' & st0 & Hh' & ->).
    assert (Hsplit : tr st' = (t1 ++ [ECb Xj (h_state H it' q' r') e]) ++ t2)
      by (rewrite Ht, <- app_assoc; reflexivity).
    destruct (Hist_evals H _ _ _ _ _ _ Hmode Hh') as [Hlen _].
    apply Hist_status in Hh' as Hst. destruct Hst as [Hit' _].
    unfold InitialNumeric, BelowMarker in Hi, Hb. rewrite (pop_p _ _ HH) in Hi, Hb.
    cbn [cb_fun h_state].
    apply (Hist_mono H (pop_comp c) it' q' r' st0 Xj (t1 ++ [ECb Xj (h_state H it' q' r') e])) with (k := i) (X := Xi); auto.
    - pose proof (ho_p2 _ _ HH); lia.
    - exact (ho_B _ _ HH).
    - intros Hc. destruct (Hb Hc) as (H1 & H2 & _). split; [apply HE|auto].
    - unfold InitNum. rewrite Hsplit, evals_app, firstn_evals_app in Hi; [exact Hi|nia].
    - intros Hc x y Hxy. destruct (Hb Hc) as (_ & _ & Hb'). apply (Hb' x y). rewrite Hsplit, evals_app. apply in_or_app; auto.
    - rewrite cbs_app. cbn. rewrite Hcbs in Hci.
      destruct (Nat.lt_ge_cases i (length (cbs t1))) as [Hl|Hl].
      + rewrite nth_error_app1 in Hci |- * by exact Hl. exact Hci.
      + assert (i = length (cbs t1)) by lia. subst i.
        rewrite nth_error_app2, Nat.sub_diag in Hci |- * by lia. exact Hci.
  Qed.

  (** ** C07 (no hypothesis on the values; [nleb x ftol = false] also covers NaN) *)
  Theorem C07_deferred_ftol c w a0 res st' :
    EnvOK -> exec (pop_run c) w a0 = (inl res, st') -> pop_sync c = true ->
    (forall k X s, 1 <= k -> S k < length (cbs (tr st')) ->
        nth_error (cbs (tr st')) k = Some (X, s) -> nleb (cb_fun s) (a_ftol (pop_args c)) = false) /\
    (r_status res = (-1)%Z <-> nleb (r_fun res) (a_ftol (pop_args c)) = false).
  Proof.
    intros HE Hx Hsy.
    destruct (pop_run_hist _ _ _ _ _ HE Hx) as (H & HH & it & q & r & cc & m & pop & Hh & Hm & _ & ->).
    pose proof (ho_sync _ _ HH) as Hs. rewrite Hsy in Hs. rewrite <- (ho_ftol _ _ HH). split.
    - intros k X s Hk1 Hk2 Hk. destruct (cbs_split _ _ _ _ Hk) as (t1 & e & t2 & Ht & Hlt & Hcbs).
      destruct (Hist_cb_at H _ _ _ _ _ _ Hh _ _ _ _ _ Ht) as [(-> & -> & -> & ->)|(i & q' & r' & I1 & I2 & -> & ->)].
      + exfalso. rewrite Hcbs, app_length, Hlt in Hk2. cbn in Hk2. lia.
      + pose proof (Hist_cbs_len H _ _ _ _ _ _ I1) as Hl. rewrite cbs_app, app_length, Hlt in Hl.
        cbn in Hl. destruct (h_cb H); [|lia].
        apply (Hist_sync_status H _ _ _ _ _ _ Hs I1). lia.
    - cbn. pose proof (Hist_stop H _ _ _ _ _ _ Hh) as Hst. apply Hist_status in Hh as Hss.
      pose proof (Hist_sync_status H _ _ _ _ _ _ Hs Hh) as Hss'. cbn in Hss'.
      split; [intros; apply Hss'; [lia|assumption]|].
      destruct Hst as [[_ Hst]|[-> _]]; [congruence|auto].
  Qed.

  (** ** C08 *)
  Theorem C08_immediate_stop c w a0 res st' :
    EnvOK -> exec (pop_run c) w a0 = (inl res, st') -> pop_sync c = false ->
    (0 <= r_status res)%Z ->
    exists l, evals (tr st') = l ++ [(r_x res, r_fun res)] /\
              nleb (r_fun res) (a_ftol (pop_args c)) = true.
  Proof.
    intros HE Hx Hsy Hst.
    destruct (pop_run_hist _ _ _ _ _ HE Hx) as (H & HH & it & q & r & cc & m & pop & Hh & Hm & _ & ->).
    cbn in Hst |- *. pose proof (async_serial _ _ HH Hsy) as Hser.
    pose proof (ho_sync _ _ HH) as Hs. rewrite Hsy in Hs.
    assert (Hc : cc = 0%Z \/ cc = 1%Z).
    { destruct (Hist_stop H _ _ _ _ _ _ Hh) as [[Hc _]|[-> _]]; [exact Hc|lia]. }
    destruct (Hist_async_stop H _ _ _ _ _ _ Hs Hser Hh Hc)
      as (q0 & r0 & pop0 & t0 & q1 & l & i & x & _ & _ & _ & _ & Hev & Hqb & Hle & _).
    exists (evals t0 ++ map (fun z => (h_view H (fst z), snd z)) l).
    rewrite Hev, Hqb, <- app_assoc, <- (ho_ftol _ _ HH). auto.
  Qed.

  (** [status 0] in immediate mode: the best point before the last evaluation is within xtol. *)
  Theorem C04_xtol_immediate c w a0 res st' :
    EnvOK -> exec (pop_run c) w a0 = (inl res, st') -> pop_sync c = false ->
    InitialNumeric c (tr st') -> BelowMarker c (tr st') ->
    r_status res = 0%Z ->
    exists l xp yp, evals (tr st') = l ++ [(r_x res, r_fun res)] /\
      In (xp, yp) l /\ (forall x y, In (x, y) l -> isnum y -> nleb yp y = true) /\
      nleb (vnorm (vsub xp (r_x res))) (a_xtol (pop_args c)) = true.
  Proof.
    intros HE Hx Hsy Hi Hb Hst.
    destruct (pop_run_hist _ _ _ _ _ HE Hx) as (H & HH & it & q & r & cc & m & pop & Hh & Hm & _ & ->).
    cbn in Hst |- *. subst cc. pose proof (async_serial _ _ HH Hsy) as Hser.
    pose proof (ho_sync _ _ HH) as Hs. rewrite Hsy in Hs.
    assert (Hv : h_view H = fun x => x).
    { pose proof (ho_view _ _ HH) as Hv. destruct c; try exact Hv. discriminate. }
    destruct (Hist_async_stop H _ _ _ _ _ _ Hs Hser Hh (or_introl eq_refl))
      as (q0 & r0 & pop0 & t0 & q1 & l & i & x & Hh0 & Hbt & Hip & Hil & Hev & Hqb & Hle & Hxt).
    set (ls := map (fun z => (h_view H (fst z), snd z)) l) in *.
    set (q2 := fst (asyncs (h_xtol H) (h_ftol H) 0 l q1 None)) in *.
    assert (Hmode : h_mode H <> Mpi) by (rewrite Hser; discriminate).
    destruct (Hist_evals H _ _ _ _ _ _ Hmode Hh0) as [Hlen _].
    apply Hist_status in Hh0 as Hst0. destruct Hst0 as [Hit0 _].
    unfold InitialNumeric, BelowMarker in Hi, Hb. rewrite (pop_p _ _ HH), Hev in Hi, Hb.
    rewrite app_assoc, firstn_evals_app in Hi; [|rewrite app_length; nia].
    rewrite firstn_evals_app in Hi by nia.
    assert (HS : Small (pop_comp c) (evals t0 ++ ls ++ [(h_view H x, qbf q)])).
    { intros Hc. apply Hb, Hc. }
    assert (HBt : Between H (pop_comp c)) by exact (ho_B _ _ HH).
    assert (HS0 : Small (pop_comp c) (evals t0)).
    { eapply Small_incl; [|exact HS]. intros z Hz; apply in_or_app; auto. }
    assert (I0 : BInv (pop_comp c) (h_view H) (h_p H) q0 (evals t0)).
    { apply (Hist_BInv H (pop_comp c) (it - 1) q0 r0 None pop0); auto.
      - lia.
      - intros Hc. destruct (Hb Hc) as (H1 & H2 & _). split; [apply HE|auto]. }
    assert (I1 : BInv (pop_comp c) (h_view H) (h_p H) q1 (evals t0)).
    { destruct (HBt _ _ _ Hbt) as [->|(Hcm & g & nw & Y & Hrc & Hpos & HY & Hxx & Hff & Hbb & Hbf)];
        [exact I0|].
      destruct (Hb Hcm) as (HRL & Hbig & _). rewrite Hcm in I0 |- *.
      apply (BInv_restart (h_view H) (h_p H) q0 q1 (evals t0) Y (Z.to_nat nw)); auto; [apply HE|].
      specialize (HRL _ _ _ _ Hrc). lia. }
    assert (I2 : BInv (pop_comp c) (h_view H) (h_p H) q2 (evals t0 ++ ls)).
    { apply BInv_asyncs; [exact I1|lia|].
      eapply Small_incl; [|exact HS]. intros z Hz. rewrite app_assoc. apply in_or_app; left; exact Hz. }
    exists (evals t0 ++ ls), (h_view H (qb q2)), (qbf q2).
    rewrite Hev, Hqb, <- app_assoc, <- (ho_xtol _ _ HH). split; [reflexivity|].
    split; [apply (bi_best _ _ _ _ _ I2)|]. split; [apply (bi_min _ _ _ _ _ I2)|].
    rewrite Hv. apply Hxt. reflexivity.
  Qed.

  (** ** C09 *)
  Theorem C09_nan_poison c w a0 res st' :
    EnvOK -> not_mpi c -> exec (pop_run c) w a0 = (inl res, st') -> pop_comp c = false ->
    Exists (fun z => ~ isnum (snd z))
           (firstn (Z.to_nat (a_popsize (pop_args c))) (evals (tr st'))) ->
    ~ isnum (r_fun res) /\ forall X s, In (X, s) (cbs (tr st')) -> ~ isnum (cb_fun s).
  Proof.
    intros HE Hnm Hx Hcm Hn.
    destruct (pop_run_hist _ _ _ _ _ HE Hx) as (H & HH & it & q & r & cc & m & pop & Hh & Hm & _ & ->).
    cbn. pose proof (not_mpi_mode _ _ Hnm HH) as Hmode. rewrite (pop_p _ _ HH) in Hn.
    assert (HBt : Between H false) by (rewrite <- Hcm; exact (ho_B _ _ HH)).
    split; [apply (Hist_nan H _ _ _ _ _ _ Hmode HBt Hh Hn)|].
    intros X s Hin. apply In_nth_error in Hin. destruct Hin as [k Hk].
    destruct (cbs_split _ _ _ _ Hk) as (t1 & e & t2 & Ht & _).
    destruct (Hist_cb_at H _ _ _ _ _ _ Hh _ _ _ _ _ Ht) as [(-> & -> & -> & ->)|(i & q' & r' & I1 & I2 & -> & ->)].
    - apply (Hist_nan H _ _ _ _ _ _ Hmode HBt Hh Hn).
    - cbn. apply (Hist_nan H _ _ _ _ _ _ Hmode HBt I1).
      assert (Hsplit : tr st' = (t1 ++ [ECb X (h_state H i q' r') None]) ++ t2)
        by (rewrite Ht, <- app_assoc; reflexivity).
      destruct (Hist_evals H _ _ _ _ _ _ Hmode I1) as [Hlen _].
      rewrite Hsplit, evals_app, firstn_evals_app in Hn; [exact Hn|nia].
  Qed.
End PropPopOrd.
