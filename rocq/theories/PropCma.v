(** C01-C04, C18, C26 for CMA-ES and VD-CMA. *)
From Verif Require Import Base Num Env Common DE CPSO NA Mat CMAES VDCMA Hoare EvalRules Gen Steps
  Hist Runs Best Inst HistFacts HistBest PropPop CmaRun.

Section PropCma.
  Context {N : Num} {E : Env N}.

  Inductive CmaCall := CallCMA (A : CMAArgs) | CallVD (A : CMAArgs).
  Definition cma_run (c : CmaCall) : M OptRes :=
    match c with CallCMA A => cmaes_minimize A | CallVD A => vdcma_minimize A end.
  Definition cma_cargs (c : CmaCall) : CMAArgs := match c with CallCMA A | CallVD A => A end.
  Definition cma_args (c : CmaCall) : Args := caa (cma_cargs c).
  Definition cma_sysof (c : CmaCall) (P : CMAParams) : CSys :=
    match c with CallCMA A => cma_sys A P | CallVD A => vd_sys A P end.
  Definition c_not_mpi (c : CmaCall) : Prop := a_backend (cma_args c) <> Some "mpi"%string.

  Lemma cma_run_spec c w a0 :
    EnvOK ->
    wp (cma_run c)
       (fun res st' => exists P, CMAParamsOf (cma_cargs c) P /\
          CRunOf (cma_sysof c P) P (has_cb (cma_args c)) res (tr st') /\ argbuf st' = a0) NF (mkSt w [] a0).
  Proof.
    intros HE. destruct c as [A|A]; cbn [cma_run cma_cargs cma_sysof].
    - apply cmaes_run. intros m _. apply EnvOK_mode, HE.
    - apply vdcma_run. intros m _. apply EnvOK_mode, HE.
  Qed.
  Lemma cma_run_hist c w a0 res st' :
    EnvOK -> exec (cma_run c) w a0 = (inl res, st') ->
    exists P, CMAParamsOf (cma_cargs c) P /\
      CRunOf (cma_sysof c P) P (has_cb (cma_args c)) res (tr st').
  Proof.
    intros HE H. destruct (wp_elim _ _ _ _ _ _ (cma_run_spec c w a0 HE) H) as (P & H1 & H2 & _).
    exists P. auto.
  Qed.

  Lemma eval_kind_mpi sync wk b : eval_kind sync wk b = inl Mpi -> b = Some "mpi"%string.
  Proof.
    intros Hk. unfold eval_kind, wrapper_kind in Hk.
    set (b0 := match b with
              | Some b => if String.eqb b "" then "threading"%string else b
              | None => "threading"%string end) in *.
    assert (Hb : b0 = "mpi"%string).
    { destruct (in_prefer b0 && _); destruct sync; try discriminate.
      - destruct (in_prefer b0); [discriminate|].
        destruct (String.eqb b0 "mpi") eqn:Hb; [apply String.eqb_eq, Hb|discriminate].
      - destruct (String.eqb b0 "mpi") eqn:Hb; [apply String.eqb_eq, Hb|discriminate]. }
    unfold b0 in Hb. destruct b as [b1|]; [|discriminate].
    destruct (String.eqb b1 ""); [discriminate|congruence].
  Qed.
  Lemma c_not_mpi_mode c P : c_not_mpi c -> CMAParamsOf (cma_cargs c) P -> cm_mode P <> Mpi.
  Proof.
    intros Hn HP Hm. pose proof (cpo_mode _ _ HP) as Hk. rewrite Hm in Hk.
    apply eval_kind_mpi in Hk. exact (Hn Hk).
  Qed.

  Section Facts.
    Variables (Y : CSys) (P : CMAParams) (cb : bool).

    Lemma CHist_it it s st t : CHist Y P cb it s st t ->
      (0 <= it)%Z /\ ((it = 0)%Z /\ st = None \/ (1 <= it <= cm_maxiter P)%Z) /\
      cv_nfev (c_view Y s) = (it * Z.of_nat (cm_p P))%Z /\
      length (cv_hist (c_view Y s)) = Z.to_nat (cm_maxiter P).
    Proof.
      induction 1 as [s Hi Hn Hh Hr Hp Hs|it s t s' st evs arx raw Hh IH HG Hm].
      - rewrite Hn, Hh, repeat_length. split; [lia|]. split; [left; auto|]. split; [lia|reflexivity].
      - destruct IH as (H1 & H2 & H3 & H4). pose proof (cg_it _ _ _ _ _ _ _ _ _ HG).
        split; [lia|]. split; [right; lia|].
        rewrite (cg_nfev _ _ _ _ _ _ _ _ _ HG), H3, (cg_hist _ _ _ _ _ _ _ _ _ HG), upd_length.
        split; [lia|exact H4].
    Qed.

    (** A state after at least one generation is a generation's output. *)
    Lemma CHist_last it s st t : CHist Y P cb it s st t -> (0 < it)%Z ->
      exists s0 t0 evs arx raw, CHist Y P cb (it - 1) s0 None t0 /\
        CGen P it (c_view Y s0) (c_view Y s) st evs (c_diagC Y s0) arx raw /\
        c_more Y it s0 s arx /\ t = t0 ++ evs ++ ccbe P cb it (c_view Y s).
    Proof.
      intros Hh Hi. destruct Hh as [s Hx|it s t s' st evs arx raw Hh HG Hm]; [lia|].
      exists s, t, evs, arx, raw. replace (it + 1 - 1)%Z with it by lia. auto.
    Qed.

    Lemma CGen_len it v v' st evs dg arx raw : CGen P it v v' st evs dg arx raw ->
      length (cv_valid v') = cm_p P /\ length (cv_fit v') = cm_p P.
    Proof.
      intros HG. pose proof (cg_fit _ _ _ _ _ _ _ _ _ HG) as HF.
      pose proof (cg_len _ _ _ _ _ _ _ _ _ HG) as H1. pose proof (cg_lenr _ _ _ _ _ _ _ _ _ HG) as H2.
      destruct (cm_pen P) eqn:Hp.
      - destruct (fo_pen _ _ _ _ _ _ _ _ _ HF Hp) as (Hv & Hf & _).
        assert (Hl : length (cv_valid v') = cm_p P) by (rewrite Hv, map_length; exact H1).
        split; [exact Hl|]. rewrite Hf, map3_length. unfold matrix, vec in *. rewrite Hl, H1, H2. lia.
      - destruct (fo_plain _ _ _ _ _ _ _ _ _ HF Hp) as (-> & -> & _). auto.
    Qed.

    Lemma ccbe_evals it v : evals (ccbe P cb it v) = [] /\ ncalls (ccbe P cb it v) = 0.
    Proof. unfold ccbe; destruct cb; auto. Qed.

    Lemma CHist_evals it s st t : cm_mode P <> Mpi -> CHist Y P cb it s st t ->
      length (evals t) = Z.to_nat it * cm_p P /\ ncalls t = Z.to_nat it * cm_p P.
    Proof.
      intros Hm. induction 1 as [s Hi Hn Hh Hr Hp Hs|it s t s' st evs arx raw Hh IH HG Hmo].
      - cbn. auto.
      - destruct (cg_ev _ _ _ _ _ _ _ _ _ HG Hm) as (l & -> & Hl & _).
        destruct (ccbe_evals (it + 1) (c_view Y s')) as [H1 H2]. destruct IH as [I1 I2].
        destruct (CHist_it _ _ _ _ Hh) as (Hit & _).
        destruct (CGen_len _ _ _ _ _ _ _ _ HG) as [Hv _].
        rewrite !evals_app, !ncalls_app, H1, H2, evals_ok, ncalls_ok, app_nil_r, app_length.
        rewrite (Permutation_length Hl), combine_length, map_length.
        rewrite (cg_lenr _ _ _ _ _ _ _ _ _ HG). unfold matrix, vec in *. rewrite Hv, Nat.min_id.
        rewrite I1, I2. split; nia.
    Qed.

    Lemma CHist_cbs it s st t : CHist Y P cb it s st t ->
      length (cbs t) = if cb then Z.to_nat it else 0.
    Proof.
      induction 1 as [s Hi Hn Hh Hr Hp Hs|it s t s' st evs arx raw Hh IH HG Hmo].
      - cbn. destruct cb; reflexivity.
      - rewrite !cbs_app, (cg_cbs _ _ _ _ _ _ _ _ _ HG), !app_length, IH.
        destruct (CHist_it _ _ _ _ Hh) as (Hit & _). unfold ccbe. destruct cb; cbn; lia.
    Qed.

    Lemma CHist_cb_at it s st t : CHist Y P cb it s st t ->
      forall t1 X u e t2, t = t1 ++ ECb X u e :: t2 ->
      exists it' s' st', CHist Y P cb it' s' st' (t1 ++ [ECb X u e]) /\ (1 <= it' <= it)%Z /\
        u = c_state P it' (c_view Y s') /\ X = map (cma_un P) (cv_valid (c_view Y s')) /\ e = None.
    Proof.
      induction 1 as [s Hi Hn Hh Hr Hp Hs|it s t s' st evs arx raw Hh IH HG Hmo];
        intros t1 X u e t2 Heq; [destruct t1; discriminate|].
      pose proof (CHist_it _ _ _ _ Hh) as (Hit & _).
      assert (Hall : CHist Y P cb (it + 1) s' st (t ++ evs ++ ccbe P cb (it + 1) (c_view Y s')))
        by (eapply CHist_step; eauto).
      unfold ccbe in Heq, Hall. symmetry in Heq.
      destruct (app_split _ _ _ _ _ Heq) as [(c & Ht & Ht2)|(c & Hcc & ->)].
      - destruct (IH _ _ _ _ _ Ht) as (i2 & s2 & st2 & I1 & I2 & I3).
        exists i2, s2, st2. split; [exact I1|]. split; [lia|exact I3].
      - symmetry in Hcc. destruct (app_split _ _ _ _ _ Hcc) as [(c' & Hev & _)|(c' & Hcc' & ->)].
        { exfalso. pose proof (cg_cbs _ _ _ _ _ _ _ _ _ HG) as Hg.
          rewrite Hev in Hg. exact (cbs_none_app _ _ _ _ _ Hg). }
        destruct cb; [|destruct c'; discriminate].
        destruct c' as [|? [|? ?]]; try discriminate. injection Hcc' as <- <- <- <-.
        exists (it + 1)%Z, s', st. rewrite app_nil_r, <- app_assoc. split; [exact Hall|]. split; [lia|auto].
    Qed.

    (** ** The record *)
    Lemma Rows_spec1 p n (pop : matrix) (pf : vec) (best : vec * T) (rows : matrix) (frows : vec) :
      1 <= p -> length pop = p -> length pf = p -> Rows n pop pf best rows frows ->
      ((n <= Z.of_nat p)%Z \/ p = 1) /\
      length rows = Nat.max 1 (Z.to_nat n) /\ length frows = Nat.max 1 (Z.to_nat n) /\
      (forall j, j < length rows ->
         (exists i, i < p /\ nth j rows [] = nth i pop [] /\ nth j frows n0 = nth i pf n0) \/
         (nth j rows [] = fst best /\ nth j frows n0 = snd best)).
    Proof.
      intros Hp Hx Hf. unfold Rows. destruct (0 <? n)%Z eqn:Hn.
      - apply Z.ltb_lt in Hn. set (k := Z.to_nat n).
        assert (Hk : 1 <= k) by (unfold k; lia).
        assert (Hgen : forall {B} (d : B) (l r : list B), length l = p -> fit_rows k (firstn k l) = Some r ->
                  (k <= p \/ p = 1) /\ length r = k /\
                  forall j, j < k -> nth j r d = nth (if k <=? p then j else 0) l d).
        { clear. intros B d l r Hl. unfold fit_rows. rewrite firstn_length, Hl.
          destruct (Nat.min k p =? k) eqn:He.
          - apply Nat.eqb_eq in He. intros Heq; injection Heq as <-.
            assert (Hkp : k <= p) by lia. split; [auto|]. rewrite firstn_length, Hl. split; [lia|].
            intros j Hj. apply Nat.leb_le in Hkp. rewrite Hkp.
            rewrite <- (firstn_skipn k l) at 2. symmetry. apply app_nth1. rewrite firstn_length; lia.
          - apply Nat.eqb_neq in He. assert (Hkp : p < k) by lia.
            rewrite firstn_all2 by lia. destruct l as [|a [|b l]]; try discriminate.
            intros Heq; injection Heq as <-. cbn in Hl. split; [auto|]. split; [apply repeat_length|].
            intros j Hj. destruct (k <=? p) eqn:Hle; [apply Nat.leb_le in Hle; lia|].
            rewrite nth_indep with (d' := a) by (rewrite repeat_length; exact Hj).
            rewrite nth_repeat. reflexivity. }
        intros [H1 H2].
        destruct (Hgen vec [] pop rows Hx H1) as (G1 & G2 & G3).
        destruct (Hgen T n0 pf frows Hf H2) as (_ & G5 & G6).
        split; [destruct G1 as [G1|G1]; [left; lia|right; exact G1]|].
        unfold matrix, vec in *. split; [lia|]. split; [lia|].
        intros j Hj. left. exists (if k <=? p then j else 0).
        split; [destruct (k <=? p) eqn:Hle; [apply Nat.leb_le in Hle; lia|lia]|].
        split; [apply G3; lia|apply G6; lia].
      - apply Z.ltb_ge in Hn. intros [-> ->]. cbn [length].
        split; [left; lia|]. split; [lia|]. split; [lia|].
        intros [|j] Hj; [|lia]. right; auto.
    Qed.

    Lemma CHist_rec (x : St) it s st t : 1 <= cm_p P -> CHist Y P cb it s st t ->
      match cm_nout P with
      | None => cv_rec (c_view Y s) = None
      | Some n => exists xs fs, cv_rec (c_view Y s) = Some (xs, fs) /\ length xs = Z.to_nat it /\
          length fs = Z.to_nat it /\
          (it = 0%Z \/ (n <= Z.of_nat (cm_p P))%Z \/ cm_p P = 1) /\
          Forall (fun rows : matrix => length rows = Nat.max 1 (Z.to_nat n)) xs /\
          Forall (fun rows : vec => length rows = Nat.max 1 (Z.to_nat n)) fs
      end.
    Proof.
      intros Hp1. induction 1 as [s Hi Hn Hh Hr Hp Hs|it s t s' st evs arx raw Hh IH HG Hmo].
      - rewrite Hr. destruct (cm_nout P); [|reflexivity]. exists [], [].
        repeat split; auto.
      - pose proof (cg_rec _ _ _ _ _ _ _ _ _ HG) as Hrec.
        destruct (CGen_len _ _ _ _ _ _ _ _ HG) as [Hlv Hlf].
        destruct (cm_nout P) as [n|]; [|apply (RecW_noneN x) in Hrec; exact Hrec].
        destruct IH as (xs & fs & Hre & H1 & H2 & H3 & F1 & F2). rewrite Hre in Hrec.
        apply (RecW_some x) in Hrec. destruct Hrec as (_ & rows & frows & HR & ->).
        apply (Rows_spec1 (cm_p P)) in HR; auto; [|rewrite map_length; exact Hlv].
        destruct HR as (R1 & R2 & R3 & _). exists (xs ++ [rows]), (fs ++ [frows]).
        destruct (CHist_it _ _ _ _ Hh) as (Hit & _).
        rewrite !app_length, H1, H2. cbn [length].
        split; [reflexivity|]. split; [lia|]. split; [lia|]. split; [auto|].
        split; apply Forall_app; auto.
    Qed.
  End Facts.

  (** ** C01 *)
  Theorem C01_terminates_cma c w a0 st' :
    EnvOK -> exec (cma_run c) w a0 <> (inr OutOfFuel, st').
  Proof.
    intros HE Hx. pose proof (wp_elim_exn _ _ _ _ _ _ (cma_run_spec c w a0 HE) Hx) as Hn.
    exact (Hn eq_refl).
  Qed.

  Theorem C01_nit_cma c w a0 res st' :
    EnvOK -> exec (cma_run c) w a0 = (inl res, st') ->
    (1 <= r_nit res <= a_maxiter (cma_args c))%Z.
  Proof.
    intros HE Hx. destruct (cma_run_hist _ _ _ _ _ HE Hx) as (P & HP & it & s & st & m & Hh & Hi & Hm & ->).
    cbn. destruct (CHist_it _ _ _ _ _ _ _ Hh) as (_ & H2 & _).
    unfold cma_args. rewrite <- (cpo_mx _ _ HP). lia.
  Qed.

  (** In particular maxiter <= 0 never gives a result. *)
  Theorem C01_no_iteration_cma c w a0 res st' :
    EnvOK -> (a_maxiter (cma_args c) <= 0)%Z -> exec (cma_run c) w a0 <> (inl res, st').
  Proof. intros HE Hm Hx. pose proof (C01_nit_cma _ _ _ _ _ HE Hx). lia. Qed.

  (** ** C02 *)
  Theorem C02_nfev_cma c w a0 res st' :
    EnvOK -> c_not_mpi c -> exec (cma_run c) w a0 = (inl res, st') ->
    r_nfev res = Z.of_nat (ncalls (tr st')) /\
    r_nfev res = (r_nit res * a_popsize (cma_args c))%Z /\
    length (evals (tr st')) = ncalls (tr st').
  Proof.
    intros HE Hnm Hx. destruct (cma_run_hist _ _ _ _ _ HE Hx) as (P & HP & it & s & st & m & Hh & Hi & Hm & ->).
    cbn. destruct (CHist_evals _ _ _ _ _ _ _ (c_not_mpi_mode _ _ Hnm HP) Hh) as [H1 H2].
    destruct (CHist_it _ _ _ _ _ _ _ Hh) as (_ & _ & H3 & _).
    rewrite H1, H2, H3. pose proof (cpo_p _ _ HP). pose proof (cpo_p1 _ _ HP).
    unfold cma_args. nia.
  Qed.

  (** ** C03 *)
  Theorem C03_callbacks_cma c w a0 res st' :
    EnvOK -> exec (cma_run c) w a0 = (inl res, st') ->
    let t := tr st' in
    (a_callback (cma_args c) <> CbFun -> cbs t = []) /\
    (a_callback (cma_args c) = CbFun ->
      Z.of_nat (length (cbs t)) = r_nit res /\
      (forall k X s, nth_error (cbs t) k = Some (X, s) ->
          cb_nit s = Z.of_nat (S k) /\ cb_nfev s = (cb_nit s * a_popsize (cma_args c))%Z) /\
      (c_not_mpi c -> forall t1 X s e t2, t = t1 ++ ECb X s e :: t2 ->
          cb_nfev s = Z.of_nat (ncalls t1)) /\
      exists t1 X s, t = t1 ++ [ECb X s None] /\
        cb_x s = r_x res /\ cb_fun s = r_fun res /\ cb_nfev s = r_nfev res /\
        cb_nit s = r_nit res /\ cb_all s = r_all res).
  Proof.
    intros HE Hx. destruct (cma_run_hist _ _ _ _ _ HE Hx) as (P & HP & it & s & st & m & Hh & Hi & Hm & ->).
    cbn zeta. pose proof (CHist_cbs _ _ _ _ _ _ _ Hh) as Hl.
    assert (Hpz : Z.of_nat (cm_p P) = a_popsize (cma_args c)).
    { pose proof (cpo_p _ _ HP). pose proof (cpo_p1 _ _ HP). unfold cma_args. lia. }
    split.
    - intros Hc. unfold has_cb in Hl.
      destruct (a_callback (cma_args c)); try congruence; apply length_zero_iff_nil; exact Hl.
    - intros Hc. unfold has_cb in Hl, Hh. rewrite Hc in Hl, Hh. cbn [r_nit r_x r_fun r_nfev r_all].
      split; [lia|]. split; [|split].
      + intros k X u Hk. destruct (cbs_split _ _ _ _ Hk) as (t1 & e & t2 & Ht & Hlt & _).
        destruct (CHist_cb_at _ _ _ _ _ _ _ Hh _ _ _ _ _ Ht) as (i & s' & st2 & Hh' & Hi' & -> & -> & ->).
        pose proof (CHist_cbs _ _ _ _ _ _ _ Hh') as Hl'. rewrite cbs_app, app_length in Hl'.
        destruct (CHist_it _ _ _ _ _ _ _ Hh') as (_ & _ & Hn & _).
        cbn in Hl' |- *. rewrite Hn, <- Hpz. lia.
      + intros Hnm t1 X u e t2 Ht.
        destruct (CHist_cb_at _ _ _ _ _ _ _ Hh _ _ _ _ _ Ht) as (i & s' & st2 & Hh' & Hi' & -> & -> & ->).
        destruct (CHist_evals _ _ _ _ _ _ _ (c_not_mpi_mode _ _ Hnm HP) Hh') as [_ H2].
        rewrite ncalls_app in H2. cbn [ncalls] in H2.
        destruct (CHist_it _ _ _ _ _ _ _ Hh') as (_ & _ & Hn & _). cbn. nia.
      + destruct (CHist_last _ _ _ _ _ _ _ Hh Hi) as (s0 & t0 & evs & arx & raw & _ & _ & _ & Ht).
        exists (t0 ++ evs), (map (cma_un P) (cv_valid (c_view _ s))), (c_state P it (c_view _ s)).
        rewrite Ht. unfold ccbe. rewrite app_assoc. cbn. auto 10.
  Qed.

  (** ** C04 *)
  Definition documented (st : Z) (msg : string) : Prop :=
    In (st, msg)
       [ (-8, "TolX"); (-7, "TolFun"); (-6, "TolXUp"); (-5, "EqualFunValues");
         (-4, "ConditionCov"); (-3, "NoEffectCoord"); (-2, "NoEffectAxis");
         (-1, "maximum number of iterations is reached");
         (0, "best solution changes less than xtol");
         (1, "best solution value is lower than ftol") ]%Z%string.

  Theorem C04_status_cma c w a0 res st' :
    EnvOK -> exec (cma_run c) w a0 = (inl res, st') ->
    let a := cma_args c in
    (r_success res = true <-> (0 <= r_status res)%Z) /\
    documented (r_status res) (r_message res) /\
    (r_status res = (-1)%Z <-> r_nit res = a_maxiter a) /\
    (r_status res = 0%Z -> nltb (r_fun res) (a_ftol a) = true) /\
    (r_status res = 1%Z -> nleb (r_fun res) (a_ftol a) = true) /\
    ((r_status res < -1)%Z -> nleb (r_fun res) (a_ftol a) = false).
  Proof.
    intros HE Hx. destruct (cma_run_hist _ _ _ _ _ HE Hx) as (P & HP & it & s & st & m & Hh & Hi & Hm & ->).
    cbn zeta. cbn [r_success r_status r_message r_fun r_nit]. 
    split; [symmetry; split; intros; [apply Z.leb_le|apply Z.leb_le]; assumption|].
    destruct (CHist_last _ _ _ _ _ _ _ Hh Hi) as (s0 & t0 & evs & arx & raw & _ & HG & _ & _).
    pose proof (cg_it _ _ _ _ _ _ _ _ _ HG) as Hit.
    destruct (cg_status _ _ _ _ _ _ _ _ _ HG) as (pc & dg & BD & Hst).
    match type of Hst with _ = converge ?a1 ?a2 ?a3 ?a4 ?a5 ?a6 ?a7 ?a8 ?a9 ?b1 ?b2 ?b3 ?b4 ?b5 ?b6 ?b7 =>
      pose proof (converge_cases a1 a2 a3 a4 a5 a6 a7 a8 a9 b1 b2 b3 b4 b5 b6 b7) as Hc end.
    rewrite <- Hst in Hc. unfold cma_args. rewrite <- (cpo_mx _ _ HP), <- (cpo_ftol _ _ HP).
    assert (Hd : forall c', st = c' -> documented st m <-> message c' = Some m \/ documented c' m) by
      (intros c' <-; rewrite Hm; split; auto; intros [_|Hd]; [|exact Hd];
       unfold message in Hm; destruct (find _ messages) as [[z msg]|] eqn:Hf; [|discriminate];
       apply find_some in Hf; destruct Hf as [Hf Hz]; cbn in Hz, Hm; apply Z.eqb_eq in Hz;
       injection Hm as ->; subst z; exact Hf).
    split; [apply (Hd st eq_refl); left; exact Hm|].
    destruct Hc as [[-> Hmx]|(Hmx & Hc)].
    { split; [split; [lia|reflexivity]|]. split; [lia|]. split; lia. }
    destruct Hc as [(-> & _ & Hb)|[(-> & Hb & _)|(Hb & Hc)]].
    - split; [split; [lia|lia]|]. split; [auto|]. split; [lia|lia].
    - split; [split; [lia|lia]|]. split; [lia|]. split; [auto|lia].
    - assert (Hneg : (st < -1)%Z)
        by (destruct Hc as [->|[->|[->|[[-> _]|[->|[[-> _]| ->]]]]]]; lia).
      split; [split; [lia|lia]|]. split; [lia|]. split; [lia|auto].
  Qed.

  (** [status 0]: the mean moved by at most xtol in the last iteration. [m0], [m1]: the means, in
      coordinates where the bounds are [-1, 1]; they are not visible from outside. *)
  Theorem C04_xtol_cma c w a0 res st' :
    EnvOK -> exec (cma_run c) w a0 = (inl res, st') -> r_status res = 0%Z ->
    exists P it s0 t0 s, CHist (cma_sysof c P) P (has_cb (cma_args c)) it s0 None t0 /\
      CHist (cma_sysof c P) P (has_cb (cma_args c)) (it + 1) s (Some 0%Z) (tr st') /\
      nleb (vnorm (vsub (cv_xmean (c_view _ s0)) (cv_xmean (c_view _ s)))) (a_xtol (cma_args c)) = true.
  Proof.
    intros HE Hx Hst0. destruct (cma_run_hist _ _ _ _ _ HE Hx) as (P & HP & it & s & st & m & Hh & Hi & Hm & ->).
    cbn in Hst0. subst st.
    destruct (CHist_last _ _ _ _ _ _ _ Hh Hi) as (s0 & t0 & evs & arx & raw & Hh0 & HG & _ & _).
    exists P, (it - 1)%Z, s0, t0, s. replace (it - 1 + 1)%Z with it by lia.
    split; [exact Hh0|]. split; [exact Hh|].
    destruct (cg_status _ _ _ _ _ _ _ _ _ HG) as (pc & dg & BD & Hst).
    match type of Hst with _ = converge ?a1 ?a2 ?a3 ?a4 ?a5 ?a6 ?a7 ?a8 ?a9 ?b1 ?b2 ?b3 ?b4 ?b5 ?b6 ?b7 =>
      pose proof (converge_cases a1 a2 a3 a4 a5 a6 a7 a8 a9 b1 b2 b3 b4 b5 b6 b7) as Hc end.
    rewrite <- Hst in Hc. rewrite (cg_xold _ _ _ _ _ _ _ _ _ HG), (cpo_xtol _ _ HP) in Hc.
    destruct Hc as [[Hc _]|(_ & [(_ & Hb & _)|[(Hc & _)|(_ & Hc)]])]; try discriminate; [exact Hb|].
    destruct Hc as [Hc|[Hc|[Hc|[[Hc _]|[Hc|[[Hc _]|Hc]]]]]]; discriminate.
  Qed.

  (** ** C18 *)
  Theorem C18_shape_cma c w a0 res st' :
    EnvOK -> exec (cma_run c) w a0 = (inl res, st') ->
    let a := cma_args c in
    (a_return_all a = false -> r_all res = None) /\
    (a_return_all a = true -> exists n xs fs,
        nceilZ (nmul (a_verbosity a) (nZ (a_popsize a))) = Some n /\
        ((n <= a_popsize a)%Z \/ a_popsize a = 1%Z) /\
        r_all res = Some (xs, fs) /\
        Z.of_nat (length xs) = r_nit res /\ Z.of_nat (length fs) = r_nit res /\
        Forall (fun rows : matrix => Z.of_nat (length rows) = Z.max 1 n) xs /\
        Forall (fun rows : vec => Z.of_nat (length rows) = Z.max 1 n) fs).
  Proof.
    intros HE Hx. destruct (cma_run_hist _ _ _ _ _ HE Hx) as (P & HP & it & s & st & m & Hh & Hi & Hm & ->).
    assert (Hp1 : 1 <= cm_p P) by (pose proof (cpo_p _ _ HP); pose proof (cpo_p1 _ _ HP); lia).
    pose proof (CHist_rec _ _ _ st' _ _ _ _ Hp1 Hh) as Hr. cbn zeta. cbn [r_all r_nit]. split.
    - intros Hra. rewrite (cpo_nout0 _ _ HP Hra) in Hr. exact Hr.
    - intros Hra. destruct (cpo_nout1 _ _ HP Hra) as (n & Hn & Hc). rewrite Hn in Hr.
      destruct Hr as (xs & fs & -> & H1 & H2 & H3 & H4 & H5).
      exists n, xs, fs. split; [exact Hc|].
      pose proof (cpo_p _ _ HP). pose proof (cpo_p1 _ _ HP). unfold cma_args.
      split; [lia|]. split; [reflexivity|]. split; [lia|]. split; [lia|]. split.
      + eapply Forall_impl; [|exact H4]. cbn beta. intros; lia.
      + eapply Forall_impl; [|exact H5]. cbn beta. intros; lia.
  Qed.

  (** Without constraints, slice [k] of the record holds points evaluated in iteration [k + 1],
      each with its own value. *)
  Lemma CHist_rows Y P cb (x : St) it s st t xs fs :
    1 <= cm_p P -> cm_mode P <> Mpi -> cm_pen P = false ->
    CHist Y P cb it s st t -> cv_rec (c_view Y s) = Some (xs, fs) ->
    RowsP (fun k x y => In (x, y) (chunk (cm_p P) k (evals t))) xs fs.
  Proof.
    intros Hp1 Hm Hpen Hh. revert xs fs.
    induction Hh as [s Hi Hn Hh Hr Hp Hs|it s t s' st evs arx raw Hh IH HG Hmo]; intros xs fs Hxf.
    - rewrite Hr in Hxf. destruct (cm_nout P); [|discriminate]. injection Hxf as <- <-.
      intros [|k]; discriminate.
    - pose proof (cg_rec _ _ _ _ _ _ _ _ _ HG) as Hrec. rewrite Hxf in Hrec.
      destruct (CGen_len _ _ _ _ _ _ _ _ _ HG) as [Hlv Hlf].
      pose proof (CHist_rec _ _ _ x _ _ _ _ Hp1 Hh) as Hr0.
      destruct (cm_nout P) as [n|]; [|apply (RecW_noneN x) in Hrec; discriminate].
      destruct Hr0 as (xs0 & fs0 & Hr0 & Hl1 & Hl2 & _). rewrite Hr0 in Hrec.
      apply (RecW_some x) in Hrec. destruct Hrec as (_ & rows & frows & HR & Heq).
      injection Heq as -> ->.
      specialize (IH xs0 fs0 Hr0).
      destruct (fo_plain _ _ _ _ _ _ _ _ _ (cg_fit _ _ _ _ _ _ _ _ _ HG) Hpen) as (_ & Hfr & _).
      destruct (cg_ev _ _ _ _ _ _ _ _ _ HG Hm) as (l & -> & Hl & _).
      destruct (ccbe_evals P cb (it + 1) (c_view Y s')) as [H1 _].
      rewrite !evals_app, H1, evals_ok, app_nil_r.
      destruct (CHist_evals _ _ _ _ _ _ _ Hm Hh) as [Hlen _].
      destruct (CHist_it _ _ _ _ _ _ _ Hh) as (Hit & _).
      assert (Hll : length l = cm_p P).
      { rewrite (Permutation_length Hl), combine_length, map_length.
        rewrite (cg_lenr _ _ _ _ _ _ _ _ _ HG). unfold matrix, vec in *. rewrite Hlv. lia. }
      apply RowsP_snoc; [congruence| |].
      + eapply RowsP_impl; [|exact IH]. cbn beta. intros k y z Hk Hin.
        rewrite chunk_app_l; [exact Hin|]. rewrite Hlen. nia.
      + rewrite Hl1, chunk_app_r by (auto; lia).
        apply (Rows_spec1 (cm_p P)) in HR; auto; [|rewrite map_length; exact Hlv].
        destruct HR as (_ & _ & _ & HR). intros j Hj.
        assert (Hin : forall i, i < cm_p P ->
           In (nth i (map (cma_un P) (cv_valid (c_view Y s'))) [], nth i (cv_fit (c_view Y s')) n0) l).
        { intros i Hi. apply (Permutation_in _ (Permutation_sym Hl)). rewrite Hfr in Hlf |- *.
          assert (He : forall (l1 : matrix) (l2 : vec), length l1 = cm_p P -> length l2 = cm_p P ->
                       In (nth i l1 [], nth i l2 n0) (combine l1 l2)).
          { intros l1 l2 G1 G2. rewrite <- (combine_nth l1 l2 i [] n0) by (unfold matrix, vec in *; congruence).
            apply nth_In. rewrite combine_length. unfold matrix, vec in *; lia. }
          apply He; [rewrite map_length; exact Hlv|exact Hlf]. }
        assert (Hz : forall (u : vec) (y : T), nth j rows [] = u -> nth j frows n0 = y -> In (u, y) l ->
                     In (nth j rows [], nth j frows n0) l) by (intros u y -> ->; auto).
        destruct (HR j Hj) as [(i & Hi & E1 & E2)|[E1 E2]]; apply (Hz _ _ E1 E2).
        * apply Hin, Hi.
        * unfold best_row. cbn [fst snd].
          assert (Ha : argmin (cv_fit (c_view Y s')) < cm_p P)
            by (rewrite <- Hlf; apply argmin_lt; intros Hnil; rewrite Hnil in Hlf; cbn in Hlf; lia).
          specialize (Hin _ Ha). rewrite (nth_indep _ [] (cma_un P [])) in Hin
            by (rewrite map_length; unfold matrix, vec in *; lia).
          rewrite map_nth in Hin. exact Hin.
  Qed.

  Theorem C18_rows_cma c w a0 res st' xs fs :
    EnvOK -> c_not_mpi c -> a_constraints (cma_args c) = None ->
    exec (cma_run c) w a0 = (inl res, st') -> r_all res = Some (xs, fs) ->
    forall k rows frows, nth_error xs k = Some rows -> nth_error fs k = Some frows ->
    forall j, j < length rows ->
      In (nth j rows [], nth j frows n0)
         (chunk (Z.to_nat (a_popsize (cma_args c))) k (evals (tr st'))).
  Proof.
    intros HE Hnm Hc Hx Hall.
    destruct (cma_run_hist _ _ _ _ _ HE Hx) as (P & HP & it & s & st & m & Hh & Hi & Hm & ->).
    assert (Hp1 : 1 <= cm_p P) by (pose proof (cpo_p _ _ HP); pose proof (cpo_p1 _ _ HP); lia).
    unfold cma_args. rewrite <- (cpo_p _ _ HP).
    apply (CHist_rows _ _ _ st' _ _ _ _ xs fs Hp1 (c_not_mpi_mode _ _ Hnm HP)) with (2 := Hh).
    - rewrite (cpo_pen _ _ HP). unfold cma_args in Hc. rewrite Hc. reflexivity.
    - exact Hall.
  Qed.

  (** ** C26 *)
  (** The last generation: the last popsize evaluations. *)
  Definition last_gen (c : CmaCall) (res : OptRes) (t : list event) : list (vec * T) :=
    chunk (Z.to_nat (a_popsize (cma_args c))) (Z.to_nat (r_nit res - 1)) (evals t).

  Lemma chunk_last {A} p k (l1 l2 : list A) : length l1 = k * p -> length l2 = p -> chunk p k (l1 ++ l2) = l2.
  Proof. apply chunk_app_r. Qed.

  Theorem C26_last_generation {L : OrdLaws num_arith} c w a0 res st' :
    EnvOK -> c_not_mpi c -> a_constraints (cma_args c) = None ->
    exec (cma_run c) w a0 = (inl res, st') ->
    In (r_x res, r_fun res) (last_gen c res (tr st')) /\
    length (last_gen c res (tr st')) = Z.to_nat (a_popsize (cma_args c)) /\
    (exists older, evals (tr st') = older ++ last_gen c res (tr st')) /\
    (Forall (fun z => isnum (snd z)) (last_gen c res (tr st')) ->
     forall x y, In (x, y) (last_gen c res (tr st')) -> nleb (r_fun res) y = true).
  Proof.
    intros HE Hnm Hc Hx.
    destruct (cma_run_hist _ _ _ _ _ HE Hx) as (P & HP & it & s & st & m & Hh & Hi & Hm & ->).
    assert (Hp1 : 1 <= cm_p P) by (pose proof (cpo_p _ _ HP); pose proof (cpo_p1 _ _ HP); lia).
    pose proof (c_not_mpi_mode _ _ Hnm HP) as Hmo.
    destruct (CHist_last _ _ _ _ _ _ _ Hh Hi) as (s0 & t0 & evs & arx & raw & Hh0 & HG & _ & Ht).
    unfold last_gen, cma_args. rewrite <- (cpo_p _ _ HP). cbn [r_nit r_x r_fun].
    destruct (cg_ev _ _ _ _ _ _ _ _ _ HG Hmo) as (l & -> & Hl & _).
    destruct (ccbe_evals P (has_cb (cma_args c)) it (c_view _ s)) as [H1 _].
    assert (Hpen : cm_pen P = false)
      by (rewrite (cpo_pen _ _ HP); unfold cma_args in Hc; rewrite Hc; reflexivity).
    destruct (fo_plain _ _ _ _ _ _ _ _ _ (cg_fit _ _ _ _ _ _ _ _ _ HG) Hpen) as (_ & Hfr & _).
    destruct (CGen_len _ _ _ _ _ _ _ _ _ HG) as [Hlv Hlf].
    destruct (CHist_evals _ _ _ _ _ _ _ Hmo Hh0) as [Hlen _].
    assert (Hll : length l = cm_p P).
    { rewrite (Permutation_length Hl), combine_length, map_length.
      rewrite (cg_lenr _ _ _ _ _ _ _ _ _ HG). unfold matrix, vec in *. rewrite Hlv. lia. }
    assert (Hev : evals (tr st') = evals t0 ++ l)
      by (rewrite Ht, !evals_app, H1, evals_ok, app_nil_r; reflexivity).
    rewrite Hev, chunk_app_r by (auto; lia).
    destruct (eo_argsort HE) as [Hperm Hsort].
    pose proof (cg_index _ _ _ _ _ _ _ _ _ HG) as Hix.
    set (f := cv_fit (c_view (cma_sysof c P) s)) in *.
    assert (Hb : cv_best (c_view (cma_sysof c P) s) < cm_p P).
    { unfold cv_best. rewrite Hix. rewrite <- Hlf.
      pose proof (Hperm f) as Hpf. pose proof (Permutation_length Hpf) as Hpl. rewrite seq_length in Hpl.
      assert (Hin : In (nth 0 (e_argsort f) 0) (seq 0 (length f))).
      { apply (Permutation_in _ Hpf). apply nth_In. unfold vec in *; lia. }
      apply in_seq in Hin. unfold vec in *; lia. }
    assert (Hin : forall i, i < cm_p P ->
       In (cma_un P (nth i (cv_valid (c_view (cma_sysof c P) s)) []), nth i f n0)
          (combine (map (cma_un P) (cv_valid (c_view (cma_sysof c P) s))) raw)).
    { intros i Hi'. assert (Hlr : length raw = cm_p P) by exact (cg_lenr _ _ _ _ _ _ _ _ _ HG).
      rewrite Hfr.
      rewrite <- (map_nth (cma_un P)).
      rewrite <- (combine_nth _ raw i (cma_un P []) n0)
        by (rewrite map_length; unfold matrix, vec in *; congruence).
      apply nth_In. rewrite combine_length, map_length. unfold matrix, vec in *; lia. }
    split; [|split; [exact Hll|split; [exists (evals t0); reflexivity|]]].
    - apply (Permutation_in _ (Permutation_sym Hl)). apply Hin, Hb.
    - intros Hnum x y Hxy.
      apply (Permutation_in _ Hl) in Hxy. apply in_combine_r in Hxy.
      assert (Hnf : Forall isnum f).
      { rewrite Hfr. apply Forall_forall. intros z Hz. rewrite Forall_forall in Hnum.
        destruct (In_nth raw z n0 Hz) as (i & Hi' & Hzi).
        assert (Hip : i < cm_p P) by (rewrite (cg_lenr _ _ _ _ _ _ _ _ _ HG) in Hi'; exact Hi').
        pose proof (Hin i Hip) as Hini. apply (Permutation_in _ (Permutation_sym Hl)) in Hini.
        specialize (Hnum _ Hini). cbn [snd] in Hnum. rewrite Hfr, Hzi in Hnum. exact Hnum. }
      rewrite <- Hfr in Hxy. destruct (In_nth f y n0 Hxy) as (i & Hi' & Hyi).
      unfold cv_bestf, cv_best. fold f. rewrite Hix.
      (* position of i in the sorted order *)
      assert (Hii : In i (e_argsort f))
        by (apply (Permutation_in _ (Permutation_sym (Hperm f))), in_seq; lia).
      destruct (In_nth _ i 0 Hii) as (b & Hb' & Hbi).
      pose proof (Permutation_length (Hperm f)) as Hpl. rewrite seq_length in Hpl.
      rewrite <- Hyi, <- Hbi.
      destruct b as [|b].
      + apply le_refl_num. rewrite Forall_forall in Hnf. apply Hnf, nth_In. rewrite Hbi; exact Hi'.
      + apply Hsort; [exact Hnf|lia|]. unfold vec in *; lia.
  Qed.
End PropCma.
