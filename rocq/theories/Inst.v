(** Contracts of the environment, and the first instance of the run theorems: every run of de, cpso,
    pso and na that returns comes from a history. *)
From Verif Require Import Base Num Env Common DE CPSO NA Hoare EvalRules Gen Steps Hist Runs Best.

Lemma Forall2_length {A B} (R : A -> B -> Prop) l l' : Forall2 R l l' -> length l = length l'.
Proof. induction 1; cbn; auto. Qed.

Section EnvOK.
  Context {N : Num} {E : Env N}.

  (** numpy, joblib and MPI honour their documentation (only the points the code relies on). *)
  Record EnvOK : Prop := {
    eo_sched : SchedOK;                       (* joblib runs every task once *)
    eo_mpi : MpiShape;                        (* collectives keep shapes *)
    eo_argsort : ArgsortOK;                   (* np.argsort is a sorting permutation *)
    eo_rand : forall r, nleb n0 (fst (e_rand r)) = true /\ nltb (fst (e_rand r)) n1 = true;
    eo_perm : forall n r, Permutation (fst (e_perm n r)) (seq 0 n);
    eo_randint : forall n r, 0 < n -> fst (e_randint n r) < n }.

  Lemma EnvOK_mode (H : EnvOK) m : ModeOK m.
  Proof. destruct H as [H1 H2 _ _ _ _]; destruct m; cbn; auto. Qed.
End EnvOK.

Section Quiet.
  Context {N : Num} {E : Env N}.

  Lemma quiet_uniform_row lower upper :
    quiet (uniform_row lower upper) (fun v => length v = Nat.min (length lower) (length upper)).
  Proof.
    unfold uniform_row. eapply quiet_conseq.
    - apply (quiet_mapM _ _ (fun _ _ => True)). intros a _. apply quiet_uniform.
    - intros v Hv. apply Forall2_length in Hv. rewrite combine_length in Hv. symmetry. exact Hv.
  Qed.

  Lemma quiet_uniform_vec lower upper :
    quiet (uniform_vec lower upper) (fun v => length v = Nat.min (length lower) (length upper)).
  Proof. eapply quiet_bind; [apply quiet_urange|]. intros; apply quiet_uniform_row. Qed.

  Lemma quiet_perm n : quiet (perm n) (fun _ => True).
  Proof. apply quiet_draw; auto. Qed.

  Lemma quiet_lhs p d lower upper (Q : matrix -> Prop) :
    (forall (x : matrix) perms,
        length x = p -> Forall (fun r : vec => length r = d) x -> length perms = d ->
        let x := map2 (fun row k => map (fun v => nadd (ndiv v (nN p)) (lin p k)) row) x (seq 0 p) in
        let pop := map (fun k => map2 (fun pi j => nth j (nth (nth k pi 0%nat) x []) n0)
                                  perms (seq 0 d)) (seq 0 p) in
        Q (map (lhs_scale lower upper) pop)) ->
    quiet (lhs p d lower upper) Q.
  Proof.
    intros H. unfold lhs. eapply quiet_bind; [apply quiet_rand_mat|]. intros x [Hx HFx].
    eapply quiet_bind; [apply quiet_replicateM, quiet_perm|]. intros perms [Hp _].
    apply quiet_ret. apply H; auto.
  Qed.

  Lemma lhs_any p d lower upper :
    quiet (lhs p d lower upper) (fun X => length X = p /\ Forall (fun _ : vec => True) X).
  Proof.
    apply quiet_lhs. intros x perms _ _ _. cbn zeta. rewrite !map_length, seq_length.
    split; [reflexivity|]. apply Forall_forall; auto.
  Qed.

  Lemma quiet_np_randint n : quiet (np_randint n) (fun _ => True).
  Proof.
    destruct n; cbn; [apply quiet_raise; discriminate|]. apply quiet_draw; auto.
  Qed.

  Lemma quiet_delete_shuffle p i : quiet (delete_shuffle p i) (fun _ => True).
  Proof.
    unfold delete_shuffle. eapply quiet_bind; [apply quiet_perm|]. intros; apply quiet_ret; auto.
  Qed.

  Lemma quiet_de_cons c lower upper u : quiet (de_cons c lower upper u) (fun _ => True).
  Proof.
    destruct c; cbn; [apply quiet_ret; auto|].
    eapply quiet_bind; [apply quiet_uniform_vec|]. intros; apply quiet_ret; auto.
  Qed.

  Lemma quiet_cands_any P (r1 X : matrix) gb :
    length r1 = de_p P -> length X = de_p P ->
    quiet (de_cands P r1 X gb) (fun U => length U = de_p P /\ Forall (fun _ => True) U).
  Proof.
    intros H1 HX. unfold de_cands.
    eapply quiet_bind.
    { apply (quiet_mapM _ _ (fun _ _ => True)). intros; apply quiet_delete_shuffle. }
    intros iss Hi. apply Forall2_length in Hi. rewrite seq_length in Hi.
    eapply quiet_bind.
    { apply (quiet_mapM _ _ (fun _ _ => True)).
      intros is _. apply quiet_orelse; [auto|discriminate|discriminate]. }
    intros V HV. apply Forall2_length in HV.
    eapply quiet_bind; [apply quiet_replicateM, quiet_np_randint|]. intros ir [Hir _].
    eapply quiet_conseq.
    { apply (quiet_mapM _ _ (fun _ _ => True)). intros; apply quiet_de_cons. }
    intros U HU. apply Forall2_length in HU. rewrite map3_length, combine_length in HU.
    split; [|apply Forall_forall; auto].
    rewrite <- HU. rewrite Hir. rewrite H1, <- HV, <- Hi.
    transitivity (Nat.min (de_p P) (Nat.min (Nat.min (de_p P) (de_p P)) (de_p P))); [|lia].
    repeat f_equal. exact HX.
  Qed.

  Lemma quiet_cand1_any P r1 i X gb : quiet (de_cand1 P r1 i X gb) (fun _ => True).
  Proof.
    unfold de_cand1. eapply quiet_bind; [apply quiet_delete_shuffle|]. intros is _.
    eapply quiet_bind; [apply quiet_orelse with (Q := fun _ => True); [auto|discriminate|discriminate]|].
    intros V _. eapply quiet_bind; [apply quiet_np_randint|]. intros ir _. apply quiet_de_cons.
  Qed.

  Definition any : vec -> Prop := fun _ => True.

  Lemma Forall_any l : Forall any l.
  Proof. apply Forall_forall; intros; exact Logic.I. Qed.

  Definition any_trial : nat -> matrix -> vec -> vec -> Prop := fun _ _ _ _ => True.

  Lemma DEGood_any P : DEGood P any any any_trial.
  Proof.
    constructor.
    - auto.
    - intros; apply Forall_any.
    - intros. eapply quiet_conseq; [apply quiet_cands_any; auto|].
      intros U [HU HC]. split; [exact HU|]. split; [exact HC|intros; exact Logic.I].
    - intros. eapply quiet_conseq; [apply quiet_cand1_any|]. intros; split; exact Logic.I.
  Qed.

  Lemma PSOGood_any P : PSOGood P any any any.
  Proof.
    constructor; try (intros; exact Logic.I).
    - intros; apply Forall_any.
    - intros; split; exact Logic.I.
    - intros. eapply quiet_conseq; [apply quiet_uniform_row|]. intros; exact Logic.I.
  Qed.

  Lemma quiet_na_axis d mask xk U acc j : quiet (na_axis d mask xk U acc j) (fun _ => True).
  Proof.
    unfold na_axis. destruct acc as [[x d1] d2]. destruct (negb (nth j mask false)).
    - apply quiet_ret; auto.
    - cbn zeta. eapply quiet_bind; [apply quiet_uniform1|]. intros v _.
      destruct (S j <? d); apply quiet_ret; auto.
  Qed.

  Lemma NAGood_any P : NAGood P any.
  Proof.
    intros Xall Xallfit _ _ _. unfold na_mutation. eapply quiet_conseq.
    - apply (quiet_mapM _ _ (fun _ _ => True)). intros i _. unfold na_one.
      eapply quiet_bind.
      + apply (quiet_foldM _ (fun _ _ => True) _ []); [exact Logic.I|].
        intros; apply quiet_na_axis.
      + intros; apply quiet_ret; auto.
    - intros X HX. apply Forall2_length in HX. rewrite seq_length in HX.
      split; [symmetry; exact HX|apply Forall_any].
  Qed.
End Quiet.

(** ** Population methods, all together *)
Section PopMethods.
  Context {N : Num} {E : Env N}.

  (** A call of one of the four population methods. *)
  Inductive PopCall :=
  | CallDE (A : DEArgs) | CallCPSO (A : CPSOArgs) | CallPSO (A : PSOArgs) | CallNA (A : NAArgs).

  Definition pop_run (c : PopCall) : M OptRes :=
    match c with
    | CallDE A => de_minimize A | CallCPSO A => cpso_minimize A
    | CallPSO A => pso_minimize A | CallNA A => na_minimize A
    end.
  Definition pop_args (c : PopCall) : Args :=
    match c with
    | CallDE A => dea A | CallCPSO A => pa A | CallPSO A => psa A | CallNA A => naa A
    end.
  (** deferred (generation at a time) or immediate updating *)
  Definition pop_sync (c : PopCall) : bool :=
    match c with
    | CallDE A => is_sync (dea_updating A) (dea A)
    | CallCPSO A => is_sync (pa_updating A) (pa A)
    | CallPSO A => is_sync (psa_updating A) (psa A)
    | CallNA _ => true
    end.
  (** can the swarm be restarted? *)
  Definition pop_comp (c : PopCall) : bool :=
    match c with
    | CallCPSO A => match truthy (pa_competitivity A) with Some _ => true | None => false end
    | _ => false
    end.

  (** What is common to all histories of these runs. *)
  Record HistOf (c : PopCall) (H : HParams) : Prop := {
    ho_p : Z.of_nat (h_p H) = a_popsize (pop_args c);
    ho_p2 : 2 <= h_p H;
    ho_mx : h_mx H = a_maxiter (pop_args c);
    ho_xtol : h_xtol H = a_xtol (pop_args c);
    ho_ftol : h_ftol H = a_ftol (pop_args c);
    ho_cb : h_cb H = has_cb (pop_args c);
    ho_sync : h_sync H = pop_sync c;
    ho_mode : eval_kind (pop_sync c) (a_workers (pop_args c)) (a_backend (pop_args c))
              = inl (h_mode H);
    ho_nout0 : a_return_all (pop_args c) = false -> h_nout H = None;
    ho_nout1 : a_return_all (pop_args c) = true -> exists n, h_nout H = Some n /\
                  nceilZ (nmul (a_verbosity (pop_args c)) (nZ (a_popsize (pop_args c)))) = Some n /\
                  (0 <= a_maxiter (pop_args c))%Z;
    ho_view : match c with
              | CallNA A => exists rows, a_bounds (naa A) = D2 2 rows /\
                   h_view H = unnormalize (map (fun r => nth 0 r n0) rows)
                                          (map (fun r => nth 1 r n0) rows)
              | _ => h_view H = fun x => x
              end;
    ho_B : forall it q q1, h_B H it q q1 -> q1 = q \/
             (pop_comp c = true /\
              exists g nw Y, restart_count (h_p H) it (h_mx H) g = Some nw /\
                (0 < nw)%Z /\ length Y = length (worst (qf q) (Z.to_nat nw)) /\
                qx q1 = upd_many (worst (qf q) (Z.to_nat nw)) Y (qx q) /\
                qf q1 = upd_many (worst (qf q) (Z.to_nat nw))
                                 (repeat (nlit 1 30) (Z.to_nat nw)) (qf q) /\
                qb q1 = qb q /\ qbf q1 = qbf q);
    ho_rec : match c with
             | CallDE _ => h_recp H = (fun q _ => qx q) /\
                           h_recb H = (fun q _ cf => best_row (qx q) cf) /\
                           h_pop0 H = (fun X => X) /\ h_pop H = (fun q _ => qx q)
             | CallCPSO _ | CallPSO _ => h_recp H = (fun _ cand => cand) /\
                           h_recb H = (fun _ cand cf => best_row cand cf) /\
                           h_pop0 H = (fun X => X) /\ h_pop H = (fun _ cand => cand)
             | CallNA _ => h_recp H = (fun _ cand => map (h_view H) cand) /\
                           h_recb H = (fun _ cand cf => (h_view H (fst (best_row cand cf)),
                                                         snd (best_row cand cf))) /\
                           h_pop0 H = map (h_view H) /\
                           h_pop H = (fun _ cand => map (h_view H) cand)
             end;
    ho_args : PopArgsOK (pop_args c) }.

  Lemma cpso_HistOf A sync P (C0 CX CP : vec -> Prop) :
    PSOParamsOf A sync P -> HistOf (CallCPSO A) (pso_H P sync (has_cb (pa A)) C0 CX CP).
  Proof.
    intros HP. pose proof (ppo_sync _ _ _ HP) as Hs. subst sync.
    constructor; cbn; try (apply HP); auto.
    - intros it q q1 [->|(g & nw & Y & Hg & Hr)]; [auto|]. right. split.
      + rewrite (ppo_gamma _ _ _ HP) in Hg. rewrite Hg. reflexivity.
      + exists g, nw, Y. exact Hr.
  Qed.

  (** The caller's array after the run. *)
  Definition ArgAfter (c : PopCall) (a0 a1 : option matrix) (pop : matrix) (m : Mode) : Prop :=
    let a := pop_args c in
    let given := match a_x0 a with Some _ => a_x0_array a | None => false end in
    match c with
    | CallDE _ => a1 = if given then Some pop else a0
    | CallCPSO _ | CallPSO _ =>
        if given && negb (pop_sync c) then a1 = Some pop
        else m <> Mpi ->
             a1 = match a_x0 a with
                  | Some x => if a_x0_array a then Some (nd_rows x) else a0
                  | None => a0
                  end
    | CallNA _ => a1 = a0
    end.

  Lemma pop_run_spec c w a0 :
    EnvOK ->
    wp (pop_run c)
       (fun res st' => exists H, HistOf c H /\
          RunOf H res (tr st') (fun q pop => ArgAfter c a0 (argbuf st') pop (h_mode H))) NF (mkSt w [] a0).
  Proof.
    intros HE.
    assert (Hcpso : forall A, wp (cpso_minimize A)
       (fun res st' => exists H, HistOf (CallCPSO A) H /\
          RunOf H res (tr st') (fun q pop => ArgAfter (CallCPSO A) a0 (argbuf st') pop (h_mode H)))
       NF (mkSt w [] a0)).
    { intros A. eapply wp_post; [apply (cpso_run A any any any any)|].
      - intros; apply EnvOK_mode, HE.
      - intros; apply PSOGood_any.
      - intros _; apply HE.
      - auto.
      - intros; apply Forall_any.
      - destruct (a_x0 (pa A)); [apply Forall_any|]. intros; apply lhs_any.
      - cbn beta. intros res st' (P & sync & HP & Hrun).
        exists (pso_H P sync (has_cb (pa A)) any any any).
        split; [apply cpso_HistOf, HP|].
        destruct Hrun as (it & q & r & cc & m & pop & H1 & H2 & H3 & H4).
        exists it, q, r, cc, m, pop. repeat split; auto.
        unfold ArgAfter. cbn [pop_args pop_sync].
        rewrite (ppo_alias _ _ _ HP), (ppo_sync _ _ _ HP) in H3. exact H3. }
    destruct c as [A|A|A|A]; cbn [pop_run].
    - eapply wp_post; [apply (de_run A any any any any_trial)|].
      + intros; apply EnvOK_mode, HE.
      + intros; apply DEGood_any.
      + auto.
      + intros; apply Forall_any.
      + destruct (a_x0 (dea A)); [apply Forall_any|]. intros; apply lhs_any.
      + cbn beta. intros res st' (P & sync & HP & Hrun).
        exists (de_H P sync (has_cb (dea A)) any any any_trial). split.
        * pose proof (dpo_sync _ _ _ HP) as Hs. subst sync.
          constructor; cbn; try (apply HP); auto.
        * destruct Hrun as (it & q & r & cc & m & pop & H1 & H2 & H3 & H4).
          exists it, q, r, cc, m, pop. repeat split; auto.
          unfold ArgAfter. cbn [pop_args]. rewrite <- (dpo_alias _ _ _ HP). exact H3.
    - apply Hcpso.
    - unfold pso_minimize. eapply wp_post; [apply Hcpso|]. cbn beta.
      intros res st' (H & HH & Hrun). exists H. split; [|exact Hrun].
      destruct HH as [p1 p2 p3 p4 p5 p6 p7 p8 p9 p10 p11 p12 p13 p14].
      constructor; cbn in *; auto.
    - eapply wp_post; [apply (na_run A any)|].
      + intros; apply EnvOK_mode, HE.
      + intros; apply NAGood_any.
      + intros rows Hr. cbn zeta. destruct (a_x0 (naa A)); [apply Forall_any|].
        eapply quiet_conseq; [apply lhs_any|]. intros X [HX _]; split; [exact HX|apply Forall_any].
      + cbn beta. intros res st' (P & HP & Hrun).
        exists (na_H P (has_cb (naa A)) any any). split.
        * constructor; cbn; try (apply HP); auto.
          destruct (npo_bounds _ _ HP) as (rows & Hb & Hl & Hu).
          exists rows. split; [exact Hb|]. rewrite Hl, Hu. reflexivity.
        * destruct Hrun as (it & q & r & cc & m & pop & H1 & H2 & H3 & H4).
          exists it, q, r, cc, m, pop. repeat split; auto.
  Qed.

  (** What a returned result looks like. *)
  Lemma pop_run_hist c w a0 res st' :
    EnvOK -> exec (pop_run c) w a0 = (inl res, st') ->
    exists H, HistOf c H /\
      RunOf H res (tr st') (fun q pop => ArgAfter c a0 (argbuf st') pop (h_mode H)).
  Proof.
    intros HE Hx. exact (wp_elim _ _ _ _ _ _ (pop_run_spec c w a0 HE) Hx).
  Qed.
End PopMethods.
