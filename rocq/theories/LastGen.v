(** C26 and C18 for CMA-ES and VD-CMA with any constraints option: what is returned and recorded when the
    values are penalised. *)
From Verif Require Import Base Num Env Common DE CPSO NA Mat CMAES VDCMA Hoare EvalRules Gen Steps
  Hist Runs Best Inst HistFacts HistBest PropPop CmaRun PropCma.

Section LastGen.
  Context {N : Num} {E : Env N}.
  Local Open Scope num_scope.

  (** A member of a generation: the standardised point that was drawn, the point given to the objective,
      the value the objective returned, the value the algorithm ranks it by. *)
  Record Member := mkMember { m_drawn : list T; m_x : list T; m_val : T; m_rank : T }.

  (** Into [-1, 1] (a nan stays a nan). *)
  Definition into (x : T) : T := let y := if x <? nZ (-1) then nZ (-1) else x in if n1 <? y then n1 else y.
  (** The weighted square of how far a point is from its image in the box. *)
  Definition overshoot (u a : list T) : T :=
    fold_left nadd (map2 nmul (map2 (fun y x => nsq (y - x)) (map into a) a) u) n0.
  (** The box coordinates of a standardised point. *)
  Definition from_std (rows : list (list T)) (a : list T) : list T :=
    map2 (fun x r => x * (nlit 5 (-1) * (nth 1 r n0 - nth 0 r n0)) + nlit 5 (-1) * (nth 1 r n0 + nth 0 r n0)) a rows.

  (** How a member got its evaluated point and its rank, with weights [u] common to the generation. *)
  Definition Plain (rows : list (list T)) (m : Member) : Prop :=
    m_x m = from_std rows (m_drawn m) /\ m_rank m = m_val m.
  Definition Penalised (rows : list (list T)) (u : list T) (m : Member) : Prop :=
    m_x m = from_std rows (map into (m_drawn m)) /\ m_rank m = m_val m + overshoot u (m_drawn m).

  (** The members of a generation: [l] are its evaluations. *)
  Definition Generation (cons : option string) (rows : list (list T)) (l : list (list T * T)) (g : list Member) : Prop :=
    Permutation (map (fun m => (m_x m, m_val m)) g) l /\
    match cons with
    | None => Forall (Plain rows) g
    | Some _ => exists u, Forall (Penalised rows u) g
    end.

  Lemma un_from P rows : cm_xm P = cma_xm (map (fun r => nth 0 r n0) rows) (map (fun r => nth 1 r n0) rows) ->
    cm_xstd P = cma_xstd (map (fun r => nth 0 r n0) rows) (map (fun r => nth 1 r n0) rows) ->
    forall x, cma_un P x = from_std rows x.
  Proof.
    intros H1 H2 x. unfold cma_un, unstandardize. rewrite H1, H2. clear H1 H2. revert rows.
    unfold cma_xm, cma_xstd, vadd, vmul, from_std.
    induction x as [|a x IH]; intros [|r rows]; cbn; auto. f_equal. apply IH.
  Qed.

  Lemma overshoot_penalty w sc a : penalty (map clip1 a) a w sc = overshoot (vdiv w sc) a.
  Proof.
    unfold penalty, overshoot, vdot, vsum, vmul, vsub. f_equal. f_equal.
    clear. change (map clip1 a) with (map into a). generalize (map into a). intros l. revert a.
    induction l as [|y l IH]; intros [|x a]; cbn; auto. f_equal. apply IH.
  Qed.

  (** What one generation of the model is, in these words. *)
  Lemma gen_members c P rows v v' it st evs dg arx raw l :
    CMAParamsOf (cma_cargs c) P -> a_bounds (cma_args c) = D2 2 rows ->
    CGen P it v v' st evs dg arx raw ->
    Permutation l (combine (map (cma_un P) (cv_valid v')) raw) ->
    exists g, Generation (a_constraints (cma_args c)) rows l g /\ length g = cm_p P /\
      forall i, i < cm_p P -> exists m, nth_error g i = Some m /\
        m_x m = cma_un P (nth i (cv_valid v') []) /\ m_rank m = nth i (cv_fit v') n0.
  Proof.
    intros HP Hb HG Hl. pose proof (cg_fit _ _ _ _ _ _ _ _ _ HG) as HF.
    destruct (CGen_len _ _ _ _ _ _ _ _ _ HG) as [Lv Lf].
    pose proof (cg_len _ _ _ _ _ _ _ _ _ HG) as La. pose proof (cg_lenr _ _ _ _ _ _ _ _ _ HG) as Lr.
    destruct (cpo_bounds _ _ HP) as (rows' & Hb' & Hxm & Hxs).
    assert (rows' = rows) as -> by (unfold cma_args in Hb; rewrite Hb in Hb'; injection Hb'; auto).
    pose proof (un_from _ _ Hxm Hxs) as Hun.
    pose proof (cpo_pen _ _ HP) as Hpen. fold (cma_args c) in Hpen.
    set (mk := fun i => mkMember (nth i arx []) (cma_un P (nth i (cv_valid v') [])) (nth i raw n0) (nth i (cv_fit v') n0)).
    exists (map mk (seq 0 (cm_p P))). split; [split|split].
    - rewrite Hl, map_map. unfold mk. cbn [m_x m_val].
      match goal with |- Permutation ?a ?b => replace a with b; [reflexivity|] end.
      assert (Hq : forall (V : list (list T)) (R : list T), length V = length R ->
        combine (map (cma_un P) V) R = map (fun i => (cma_un P (nth i V []), nth i R n0)) (seq 0 (length R))).
      { induction V as [|x V IH]; intros [|y R] HL; cbn in *; try discriminate; auto.
        f_equal. rewrite IH by lia. rewrite <- (seq_shift (length R) 0), map_map. reflexivity. }
      rewrite <- Lr. apply Hq. unfold matrix, vec in *. congruence.
    - destruct (a_constraints (cma_args c)) as [s|].
      + destruct (fo_pen _ _ _ _ _ _ _ _ _ HF Hpen) as (Hv & Hf & _).
        exists (vdiv (pen_w (cv_pen v')) (bnd_scale dg)). apply Forall_map, Forall_forall. intros i Hi. apply in_seq in Hi.
        unfold mk. split; cbn [m_x m_drawn m_rank m_val].
        * rewrite Hv, Hun. change [] with (map clip1 []) at 1. rewrite map_nth. reflexivity.
        * rewrite Hf, (map3_nth _ _ _ _ i n0 [] []).
          -- f_equal. rewrite Hv. change [] with (map clip1 []) at 1. rewrite map_nth. apply overshoot_penalty.
          -- unfold matrix, vec in *. lia.
          -- unfold matrix, vec in *. lia.
          -- unfold matrix, vec in *. lia.
      + destruct (fo_plain _ _ _ _ _ _ _ _ _ HF Hpen) as (Hv & Hf & _).
        apply Forall_map, Forall_forall. intros i _. unfold mk. split; cbn [m_x m_drawn m_rank m_val].
        * rewrite Hv. apply Hun.
        * rewrite Hf. reflexivity.
    - rewrite map_length, seq_length. reflexivity.
    - intros i Hi. exists (mk i). split; [|split; reflexivity].
      rewrite nth_error_map. rewrite (@nth_error_nth' nat (seq 0 (cm_p P)) i 0%nat) by (rewrite seq_length; exact Hi). rewrite seq_nth by exact Hi. reflexivity.
  Qed.

  (** A generation and its best member: [last] are the evaluations, [x] and [f] the best member's. *)
  Definition BestOf (cons : option string) (rows : list (list T)) (last : list (list T * T)) (x : list T) (f : T) (g : list Member) : Prop :=
    Generation cons rows last g /\
    (exists m, In m g /\ m_x m = x /\ m_rank m = f) /\
    (Forall (fun m => isnum (m_rank m)) g -> Forall (fun m => nleb f (m_rank m) = true) g).

  Lemma hist_best {L : OrdLaws num_arith} c P rows cb it s st t : EnvOK -> c_not_mpi c ->
    a_bounds (cma_args c) = D2 2 rows -> CMAParamsOf (cma_cargs c) P ->
    CHist (cma_sysof c P) P cb it s st t -> (0 < it)%Z ->
    exists older last g, evals t = older ++ last /\
      length last = Z.to_nat (a_popsize (cma_args c)) /\ length older = (Z.to_nat (it - 1) * Z.to_nat (a_popsize (cma_args c)))%nat /\
      BestOf (a_constraints (cma_args c)) rows last
        (cma_un P (nth (cv_best (c_view _ s)) (cv_valid (c_view _ s)) [])) (cv_bestf (c_view _ s)) g /\
      map m_x g = map (cma_un P) (cv_valid (c_view _ s)) /\ map m_rank g = cv_fit (c_view _ s).
  Proof.
    intros HE Hnm Hb HP Hh Hi.
    assert (Hp1 : 1 <= cm_p P) by (pose proof (cpo_p _ _ HP); pose proof (cpo_p1 _ _ HP); lia).
    pose proof (c_not_mpi_mode _ _ Hnm HP) as Hmo.
    destruct (CHist_last _ _ _ _ _ _ _ Hh Hi) as (s0 & t0 & evs & arx & raw & Hh0 & HG & _ & Ht).
    destruct (cg_ev _ _ _ _ _ _ _ _ _ HG Hmo) as (l & -> & Hl & _).
    destruct (ccbe_evals P cb it (c_view _ s)) as [H1 _].
    destruct (gen_members _ _ _ _ _ _ _ _ _ _ _ _ HP Hb HG Hl) as (g & Hgen & Lg & Hg).
    destruct (CGen_len _ _ _ _ _ _ _ _ _ HG) as [Hlv Hlf].
    destruct (CHist_evals _ _ _ _ _ _ _ Hmo Hh0) as [Hlen _].
    exists (evals t0), l, g.
    split; [rewrite Ht, !evals_app, H1, evals_ok, app_nil_r; reflexivity|].
    split; [unfold cma_args; rewrite <- (cpo_p _ _ HP), (Permutation_length Hl), combine_length, map_length,
      (cg_lenr _ _ _ _ _ _ _ _ _ HG); unfold matrix, vec in *; rewrite Hlv; lia|].
    split; [unfold cma_args; rewrite <- (cpo_p _ _ HP); exact Hlen|].
    split.
    2:{ split.
        - apply (nth_ext _ _ [] []); [rewrite !map_length, Lg; symmetry; exact Hlv|]. intros i Hi'. rewrite map_length, Lg in Hi'.
          destruct (Hg _ Hi') as (mi & Hmi & Hxi & _).
          rewrite (nth_indep (map (cma_un P) _) [] (cma_un P [])) by (rewrite map_length; unfold matrix, vec in *; lia).
          rewrite map_nth, <- Hxi.
          apply nth_error_nth. rewrite nth_error_map, Hmi. reflexivity.
        - apply (nth_ext _ _ n0 n0); [rewrite !map_length, Lg; symmetry; exact Hlf|]. intros i Hi'. rewrite map_length, Lg in Hi'.
          destruct (Hg _ Hi') as (mi & Hmi & _ & Hri). rewrite <- Hri.
          apply nth_error_nth. rewrite nth_error_map, Hmi. reflexivity. }
    split; [exact Hgen|].
    destruct (eo_argsort HE) as [Hperm Hsort].
    pose proof (cg_index _ _ _ _ _ _ _ _ _ HG) as Hix.
    set (f := cv_fit (c_view (cma_sysof c P) s)) in *.
    pose proof (Permutation_length (Hperm f)) as Hpl. rewrite seq_length in Hpl.
    assert (Hbst : cv_best (c_view (cma_sysof c P) s) < cm_p P).
    { unfold cv_best. rewrite Hix, <- Hlf.
      assert (Hin : In (nth 0 (e_argsort f) 0) (seq 0 (length f))).
      { apply (Permutation_in _ (Hperm f)). apply nth_In. unfold vec in *; lia. }
      apply in_seq in Hin. unfold vec in *; lia. }
    split.
    { destruct (Hg _ Hbst) as (mb & Hmb & Hmx & Hmr). exists mb. split; [eapply nth_error_In; exact Hmb|]. split; [exact Hmx|exact Hmr]. }
    intros Hnum.
    assert (Hrank : forall i, i < cm_p P -> isnum (nth i f n0)).
    { intros i Hi'. destruct (Hg _ Hi') as (mi & Hmi & _ & Hri). rewrite <- Hri.
      rewrite Forall_forall in Hnum. apply Hnum. eapply nth_error_In; exact Hmi. }
    assert (Hnf : Forall isnum f).
    { apply Forall_forall. intros z Hz. destruct (In_nth f z n0 Hz) as (i & Hi' & <-). apply Hrank. unfold vec in *; lia. }
    apply Forall_forall. intros mi Hmi. destruct (In_nth_error _ _ Hmi) as (i & Hni).
    assert (Hi' : i < cm_p P) by (rewrite <- Lg; apply nth_error_Some; congruence).
    destruct (Hg _ Hi') as (mi' & Hmi' & _ & Hri). rewrite Hni in Hmi'. injection Hmi' as <-. rewrite Hri.
    unfold cv_bestf, cv_best. fold f. rewrite Hix.
    assert (Hii : In i (e_argsort f)) by (apply (Permutation_in _ (Permutation_sym (Hperm f))), in_seq; unfold vec in *; lia).
    destruct (In_nth _ i 0 Hii) as (b & Hb' & Hbi). rewrite <- Hbi. destruct b as [|b].
    - apply le_refl_num. rewrite Hbi. apply Hrank, Hi'.
    - apply Hsort; [exact Hnf|lia|]. unfold vec in *; lia.
  Qed.

  (** C26, for both constraints options.  The result is the member with the best rank of the last popsize
      evaluations: x is the point evaluated for that member, fun is the rank. *)
  Theorem C26_best_rank {L : OrdLaws num_arith} c w a0 res st' rows :
    EnvOK -> c_not_mpi c -> a_bounds (cma_args c) = D2 2 rows ->
    exec (cma_run c) w a0 = (inl res, st') ->
    exists older last g, evals (tr st') = older ++ last /\
      length last = Z.to_nat (a_popsize (cma_args c)) /\
      BestOf (a_constraints (cma_args c)) rows last (r_x res) (r_fun res) g.
  Proof.
    intros HE Hnm Hb Hx.
    destruct (cma_run_hist _ _ _ _ _ HE Hx) as (P & HP & it & s & st & m & Hh & Hi & Hm & ->).
    destruct (hist_best _ _ _ _ _ _ _ _ HE Hnm Hb HP Hh Hi) as (older & last & g & H1 & H2 & _ & H3 & _).
    exists older, last, g. cbn [r_x r_fun]. auto.
  Qed.

  (** C26.  The same of every state given to the callback, for the evaluations made up to then; the
      population given to it are the points of that generation. *)
  Theorem C26_callback {L : OrdLaws num_arith} c w a0 res st' rows :
    EnvOK -> c_not_mpi c -> a_bounds (cma_args c) = D2 2 rows ->
    exec (cma_run c) w a0 = (inl res, st') ->
    forall t1 X u e t2, tr st' = t1 ++ ECb X u e :: t2 ->
    exists older last g, evals t1 = older ++ last /\
      length last = Z.to_nat (a_popsize (cma_args c)) /\
      BestOf (a_constraints (cma_args c)) rows last (cb_x u) (cb_fun u) g /\ X = map m_x g.
  Proof.
    intros HE Hnm Hb Hx t1 X u e t2 Ht.
    destruct (cma_run_hist _ _ _ _ _ HE Hx) as (P & HP & it & s & st & m & Hh & Hi & Hm & ->).
    destruct (CHist_cb_at _ _ _ _ _ _ _ Hh _ _ _ _ _ Ht) as (it' & s' & st1 & Hh' & Hi' & -> & -> & ->).
    destruct (hist_best _ _ _ _ _ _ _ _ HE Hnm Hb HP Hh' ltac:(lia)) as (older & last & g & H1 & H2 & _ & H3 & H4 & _).
    exists older, last, g. rewrite evals_app in H1. cbn in H1. rewrite app_nil_r in H1. cbn [cb_x cb_fun c_state]. auto.
  Qed.

  Lemma gen_rec (st0 : St) c P rows cb it s st t xs fs : EnvOK -> c_not_mpi c ->
    a_bounds (cma_args c) = D2 2 rows -> CMAParamsOf (cma_cargs c) P ->
    CHist (cma_sysof c P) P cb it s st t -> cv_rec (c_view _ s) = Some (xs, fs) ->
    RowsP (fun k x y => exists g m, Generation (a_constraints (cma_args c)) rows (chunk (cm_p P) k (evals t)) g /\
                                    In m g /\ m_x m = x /\ m_rank m = y) xs fs.
  Proof.
    intros HE Hnm Hb HP Hh. revert xs fs.
    assert (Hp1 : 1 <= cm_p P) by (pose proof (cpo_p _ _ HP); pose proof (cpo_p1 _ _ HP); lia).
    pose proof (c_not_mpi_mode _ _ Hnm HP) as Hm.
    induction Hh as [s Hi Hn Hh Hr Hp Hs|it s t s' st evs arx raw Hh IH HG Hmo]; intros xs fs Hxf.
    - rewrite Hr in Hxf. destruct (cm_nout P); [|discriminate]. injection Hxf as <- <-.
      intros [|k]; discriminate.
    - pose proof (cg_rec _ _ _ _ _ _ _ _ _ HG) as Hrec. rewrite Hxf in Hrec.
      destruct (CGen_len _ _ _ _ _ _ _ _ _ HG) as [Hlv Hlf].
      pose proof (CHist_rec _ _ _ st0 _ _ _ _ Hp1 Hh) as Hr0.
      destruct (cm_nout P) as [n|]; [|apply (RecW_noneN st0) in Hrec; discriminate].
      destruct Hr0 as (xs0 & fs0 & Hr0 & Hl1 & Hl2 & _). rewrite Hr0 in Hrec.
      apply (RecW_some st0) in Hrec. destruct Hrec as (_ & xrows & frows & HR & Heq).
      injection Heq as -> ->.
      specialize (IH xs0 fs0 Hr0).
      destruct (cg_ev _ _ _ _ _ _ _ _ _ HG Hm) as (l & -> & Hl & _).
      destruct (ccbe_evals P cb (it + 1) (c_view _ s')) as [H1 _].
      rewrite !evals_app, H1, evals_ok, app_nil_r.
      destruct (CHist_evals _ _ _ _ _ _ _ Hm Hh) as [Hlen _].
      destruct (CHist_it _ _ _ _ _ _ _ Hh) as (Hit & _).
      assert (Hll : length l = cm_p P).
      { rewrite (Permutation_length Hl), combine_length, map_length.
        rewrite (cg_lenr _ _ _ _ _ _ _ _ _ HG). unfold matrix, vec in *. rewrite Hlv. lia. }
      destruct (gen_members _ _ _ _ _ _ _ _ _ _ _ _ HP Hb HG Hl) as (g & Hgen & Lg & Hg).
      apply RowsP_snoc; [congruence| |].
      + eapply RowsP_impl; [|exact IH]. cbn beta. intros k y z Hk Hin.
        rewrite chunk_app_l; [exact Hin|]. rewrite Hlen. nia.
      + rewrite Hl1, chunk_app_r by (auto; lia).
        apply (Rows_spec1 (cm_p P)) in HR; auto; [|rewrite map_length; exact Hlv].
        destruct HR as (_ & _ & _ & HR). intros j Hj. exists g.
        assert (Hin : forall i, i < cm_p P -> exists m, In m g /\
           m_x m = cma_un P (nth i (cv_valid (c_view _ s')) []) /\ m_rank m = nth i (cv_fit (c_view _ s')) n0).
        { intros i Hi. destruct (Hg i Hi) as (m & Hmi & Hxr). exists m. split; [eapply nth_error_In; exact Hmi|exact Hxr]. }
        destruct (HR j Hj) as [(i & Hi & E1 & E2)|[E1 E2]].
        * destruct (Hin i Hi) as (m & H3 & H4 & H5). exists m. split; [exact Hgen|]. split; [exact H3|].
          rewrite H4, H5. split; [|symmetry; exact E2]. etransitivity; [|symmetry; exact E1].
          rewrite (nth_indep (map (cma_un P) _) [] (cma_un P [])) by (rewrite map_length; unfold matrix, vec in *; lia).
          rewrite map_nth. reflexivity.
        * assert (Ha : argmin (cv_fit (c_view _ s')) < cm_p P)
            by (rewrite <- Hlf; apply argmin_lt; intros Hnil; rewrite Hnil in Hlf; cbn in Hlf; lia).
          destruct (Hin _ Ha) as (m & H3 & H4 & H5). exists m. split; [exact Hgen|]. split; [exact H3|].
          rewrite H4, H5. split; symmetry; [exact E1|exact E2].
  Qed.

  (** C18, for both constraints options.  Every recorded row is the point and the rank of a member of
      that iteration's generation. *)
  Theorem C18_members_cma c w a0 res st' xs fs rows :
    EnvOK -> c_not_mpi c -> a_bounds (cma_args c) = D2 2 rows ->
    exec (cma_run c) w a0 = (inl res, st') -> r_all res = Some (xs, fs) ->
    forall k xrows frows, nth_error xs k = Some xrows -> nth_error fs k = Some frows ->
    forall j, j < length xrows ->
      exists g m, Generation (a_constraints (cma_args c)) rows
                    (chunk (Z.to_nat (a_popsize (cma_args c))) k (evals (tr st'))) g /\
        In m g /\ m_x m = nth j xrows [] /\ m_rank m = nth j frows n0.
  Proof.
    intros HE Hnm Hb Hx Hall.
    destruct (cma_run_hist _ _ _ _ _ HE Hx) as (P & HP & it & s & st & m & Hh & Hi & Hm & ->).
    unfold cma_args. rewrite <- (cpo_p _ _ HP). exact (gen_rec st' _ _ _ _ _ _ _ _ _ _ HE Hnm Hb HP Hh Hall).
  Qed.
End LastGen.
