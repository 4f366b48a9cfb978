(** C52: every point has the dimension of the problem, in every arithmetic and every execution. *)
From Coq Require Import Permutation.
From Verif Require Import Base Num Env Common DE CPSO NA Mat CMAES VDCMA Sample Hoare EvalRules Gen Steps Runs Inst
  Laws Safe Feas DimCma.

(** ** Specification *)
Section Shape.
  Context {N : Num}.
  Notation nvec := (@vec (@num_arith N)).
  Notation nmat := (@matrix (@num_arith N)).

  (** The vectors given to the objective have [d] coordinates; the callback gets [p] rows of [d]
      coordinates, and a best point with [d] coordinates. *)
  Definition Shaped (d p : nat) (t : list event) : Prop :=
    (forall x : nvec, In x (points t) -> length x = d) /\
    (forall (X : nmat) st, In (X, st) (cbs t) ->
       length X = p /\ (forall x, In x X -> length x = d) /\ length (cb_x st) = d).
End Shape.

Section DimsRun.
  Context {N : Num} {E : Env N} {HO : OrdLaws num_arith}.
  Context (HE : EnvOK).
  Notation nvec := (@vec (@num_arith N)).
  Notation nmat := (@matrix (@num_arith N)).

  Definition CbLen (d p : nat) (X : nmat) (st : CbState) : Prop :=
    length X = p /\ Forall (Len d) X /\ Len d (cb_x st).

  Lemma safe_shaped {R} d p (m : M R) Q w a0 r st' : safe (Len d) (CbLen d p) m Q ->
    exec m w a0 = (r, st') -> Shaped d p (tr st').
  Proof.
    intros H Hx. destruct (safe_exec _ _ _ _ _ _ _ _ H Hx) as (H1 & H2 & _). split; [exact H1|].
    intros X st Hi. destruct (H2 X st Hi) as (A1 & A2 & A3). rewrite Forall_forall in A2. auto.
  Qed.

  Section Ev.
    Context (Pe : nvec -> Prop) (Pc : nmat -> CbState -> Prop).

    Lemma safe_row_len lower upper : safe Pe Pc (uniform_row lower upper)
      (fun v => length v = Nat.min (length lower) (length upper)).
    Proof.
      unfold uniform_row. eapply safe_conseq.
      - apply (safe_mapM _ _ _ _ (fun _ _ => True)). intros [l u] _. unfold uniform.
        eapply safe_bind; [apply (safe_rand _ _ HE)|]. intros; apply safe_ret; exact I.
      - intros v Hv. apply Forall2_length in Hv. rewrite combine_length in Hv. symmetry; exact Hv.
    Qed.

    Lemma safe_uniform_len lower upper : safe Pe Pc (uniform_vec lower upper)
      (fun v => length v = Nat.min (length lower) (length upper)).
    Proof. eapply safe_bind; [apply safe_urange|]. intros; apply safe_row_len. Qed.

    Lemma InitLen a rows : a_bounds a = D2 2 rows -> (forall x, a_x0 a = Some x -> nd_wf x) -> PopArgsOK a ->
      InitIs a rows (Len (length rows)) (fun _ _ => True).
    Proof.
      intros Hb HI0 HA. unfold InitIs. destruct (a_x0 a) as [x|] eqn:Hx.
      - destruct (pao_x0 _ HA _ Hx) as (H1 & H2 & _). specialize (HI0 x eq_refl).
        destruct x as [| |c m]; try discriminate. rewrite Hb in H2. cbn in *. subst c. exact HI0.
      - split; [apply Forall_forall; intros r _ v k; auto|].
        intros x Hx0. apply Forall2_length in Hx0. rewrite combine_bounds, map_length in Hx0.
        symmetry; exact Hx0.
    Qed.
  End Ev.

  (** ** de *)
  Section DimDE.
    Context (P : DEParams) (Hl : length (de_lower P) = de_d P) (Hu : length (de_upper P) = de_d P) (Hp : 0 < de_p P).
    Let d := de_d P.
    Context (HM : ModeKeeps (Len d) (de_mode P)) (Pc : nmat -> CbState -> Prop).

    Lemma safe_de_cons_len u : length u = d -> safe (Len d) Pc (de_cons (de_con P) (de_lower P) (de_upper P) u) (Len d).
    Proof.
      intros H. destruct (de_con P); cbn; [apply safe_ret; exact H|].
      eapply safe_bind; [apply safe_uniform_len|]. intros r Hr. cbv beta in Hr. apply safe_ret. unfold Len.
      rewrite map3_length, combine_length. unfold d in *. vlia.
    Qed.

    Lemma safe_de_cands_len r1 X gb : length X = de_p P -> Forall (Len d) X -> Len d gb ->
      length r1 = de_p P -> Forall (Len d) r1 ->
      safe (Len d) Pc (de_cands P r1 X gb) (fun U => length U = de_p P /\ Forall (Len d) U).
    Proof.
      intros HX HXl Hg Hr Hrl. unfold de_cands.
      eapply safe_bind.
      { apply (safe_mapM _ _ _ _ (fun _ is => Forall (fun j => j < de_p P) is)).
        intros i _. apply safe_delete_shuffle; [exact HE|exact Hp]. }
      intros iss Hi. eapply safe_bind.
      { apply (safe_mapM _ _ _ _ (fun _ v => Len d v)). intros is His. apply safe_orelse. intros v Hv.
        eapply mutate_len; [|exact HXl|exact Hg|exact Hv]. rewrite HX.
        clear - Hi His. induction Hi; cbn in His; [tauto|]. destruct His as [<-|His]; auto. }
      intros V HV. eapply safe_bind.
      { apply (safe_replicateM _ _ _ _ (fun _ => True)). fold d. destruct d; [apply safe_raise|].
        apply safe_draw. intros; exact I. }
      intros ir [Hir _].
      assert (HLV : length V = de_p P).
      { apply Forall2_length in Hi. apply Forall2_length in HV. rewrite seq_length in Hi. congruence. }
      assert (HVl : Forall (Len d) V).
      { clear - HV. induction HV; constructor; auto. }
      eapply safe_conseq.
      { apply (safe_mapM _ _ _ _ (fun _ v => Len d v)). intros u Hin. apply safe_de_cons_len.
        apply (In_nth _ _ ([] : vec)) in Hin. destruct Hin as (i & Hi1 & <-).
        rewrite map3_length, combine_length in Hi1.
        rewrite map3_nth with (a := 0) (b := (([] : vec), ([] : vec))) (c := ([] : vec)) (d := ([] : vec)) by (rewrite ?combine_length; vlia).
        rewrite combine_nth by vlia. cbn [fst snd].
        apply crossover_len.
        - apply (Forall_nth_lt _ _ _ _ Hrl). vlia.
        - apply (Forall_nth_lt _ _ _ _ HVl). vlia.
        - apply (Forall_nth_lt _ _ _ _ HXl). vlia. }
      intros U HU'. split.
      - apply Forall2_length in HU'. rewrite <- HU', map3_length, combine_length. vlia.
      - clear - HU'. induction HU'; constructor; auto.
    Qed.

    Lemma safe_de_cand1_len r1 i X gb : length X = de_p P -> Forall (Len d) X -> Len d gb -> Len d r1 -> i < de_p P ->
      safe (Len d) Pc (de_cand1 P r1 i X gb) (Len d).
    Proof.
      intros HX HXl Hg Hr Hi. unfold de_cand1.
      eapply safe_bind; [apply safe_delete_shuffle; [exact HE|exact Hp]|]. intros is His. eapply safe_bind.
      { apply (safe_orelse _ _ _ _ (Len d)). intros v Hv.
        eapply mutate_len; [|exact HXl|exact Hg|exact Hv]. rewrite HX. exact His. }
      intros V HV. eapply safe_bind.
      { fold d. destruct d; [apply safe_raise|]. apply (safe_draw _ _ _ (fun _ => True)). intros; exact I. }
      intros ir _. apply safe_de_cons_len.
      apply crossover_len; [exact Hr|exact HV|]. apply (Forall_nth_lt _ _ _ _ HXl). vlia.
    Qed.

    Notation Inv := (DEInv P (Len d)).

    Lemma safe_de_step_len sync it s : Inv s -> safe (Len d) Pc (de_step P sync it s) (fun r => Inv (fst r)).
    Proof.
      intros HI. unfold de_step. eapply safe_bind; [apply safe_rand_mat, HE|]. intros r1 [Hr1 Hr2].
      assert (Hrl : Forall (Len d) r1).
      { eapply Forall_impl; [|exact Hr2]. intros x [Hx _]. exact Hx. }
      eapply safe_bind; [apply (safe_raise_if _ _ _ _ (fun _ => True)); auto|]. intros _ _.
      eapply safe_bind with (R := fun r => Inv (fst r)).
      { destruct sync.
        - destruct HI as [H1 H2 H3 H4]. unfold de_sync.
          eapply safe_bind; [apply safe_de_cands_len; auto|]. intros U [HU1 HU2].
          eapply safe_bind.
          { unfold selection_sync. eapply safe_bind.
            - apply (safe_eval_pop _ _ (Len d)); auto.
            - intros [U' f] (HU' & HL & HF & _). cbn [fst snd] in *.
              eapply safe_bind; [apply safe_np_argmin|]. intros i [_ Hne].
              apply (safe_ret _ _ _ (fun sel : SelSync => Forall (Len d) (ss_x sel) /\ length (ss_x sel) = de_p P /\
                length (ss_xfun sel) = de_p P /\ Len d (ss_best sel))). cbn.
              assert (HS : Forall (Len d) (sel_x U' f (des_X s) (des_pbestfit s))) by (apply sel_x_Forall; auto).
              assert (HSL : length (sel_x U' f (des_X s) (des_pbestfit s)) = de_p P).
              { rewrite sel_x_length. vlia. }
              assert (HFL : length (sel_fun f (des_pbestfit s)) = de_p P).
              { unfold sel_fun. rewrite map2_length. vlia. }
              split; [exact HS|]. split; [exact HSL|]. split; [exact HFL|].
              apply (Forall_nth_lt _ _ _ _ HS). rewrite HSL, <- HFL. apply argmin_lt, Hne. }
          intros sel (S1 & S2 & S3 & S4). eapply safe_bind.
          { unfold set_alias. apply (safe_when _ _ _ _ (fun _ => True)); [|exact I]. intros _. apply safe_set_arg; exact I. }
          intros _ _. apply safe_ret. cbn. constructor; assumption.
        - unfold de_async. eapply safe_bind.
          + apply (safe_foldM _ _ _ (fun a : DES * option Z => Inv (fst a))); [exact HI|].
            intros [s1 st] i Hi [H1 H2 H3 H4]. apply in_seq in Hi. unfold de_async_one. cbn [fst] in *.
            eapply safe_bind.
            { apply safe_de_cand1_len; auto; [|lia]. apply (Forall_nth_lt _ _ _ _ Hrl). vlia. }
            intros u Hu'. eapply safe_bind.
            { unfold selection_async. eapply safe_bind; [apply (safe_call_fun _ _ _ (fun _ => True)); auto|].
              intros y _. apply safe_ret with (Q := fun sel : SelAsync => Forall (Len d) (sa_x sel) /\ length (sa_x sel) = de_p P /\
                length (sa_xfun sel) = de_p P /\ Len d (sa_best sel)).
              unfold async_sel. destruct (nleb y _); [|cbn; auto].
              destruct (nleb y _); cbn; rewrite !upd_length; auto using Forall_upd. }
            intros sel (S1 & S2 & S3 & S4). eapply safe_bind.
            { unfold set_alias. apply (safe_when _ _ _ _ (fun _ => True)); [|exact I]. intros _. apply safe_set_arg; exact I. }
            intros _ _. apply safe_ret. cbn. constructor; assumption.
          + intros [s1 st] H. apply safe_ret. exact H. }
      intros [s1 st] HI1. eapply safe_bind; [apply safe_rec_write|]. intros r _.
      apply safe_ret. destruct HI1. constructor; assumption.
    Qed.
  End DimDE.

  Lemma safe_de_len A : (forall x, a_x0 (dea A) = Some x -> nd_wf x) ->
    let d := nd_len (a_bounds (dea A)) in
    safe (Len d) (CbLen d (Z.to_nat (a_popsize (dea A)))) (de_minimize A) (fun r => Len d (r_x r)).
  Proof.
    intros HI0 d. unfold de_minimize. cbv zeta.
    eapply safe_bind; [apply safe_check_pop|]. intros ? HA. cbv beta in HA.
    do 3 (eapply safe_bind; [apply (safe_raise_if _ _ _ _ (fun _ => True)); auto|]; intros _ _).
    eapply safe_bind; [apply (safe_orelse _ _ _ _ (fun _ => True)); auto|]; intros st _.
    eapply safe_bind; [apply safe_seed_and_cb|]; intros _ _.
    unfold de. eapply safe_bind; [apply (safe_eval_kindM _ _ HE _ _ _ (Len d)); intros _; apply BcastKeeps_len, (eo_mpi HE)|].
    intros mode [HM _].
    cbv zeta. eapply safe_bind; [apply safe_unpack|]. intros lu (rows & Hb & ->).
    assert (Hd : d = length rows) by (unfold d; rewrite Hb; reflexivity).
    eapply safe_bind; [apply (safe_orelse _ _ _ _ (fun _ => True)); auto|]. intros con _.
    eapply safe_bind; [apply (safe_init HE _ _ _ rows _ _ Hb (InitLen _ _ Hb HI0 HA) HA)|]. intros X [HX1 HX2].
    rewrite <- Hd in HX2.
    eapply safe_bind; [apply (safe_raise_if _ _ _ _ (fun _ => True)); auto|]. intros _ _.
    eapply safe_bind; [apply (safe_eval_pop _ _ (Len d)); auto|]. intros [X' f] (G1 & G2 & G3 & _).
    cbn [fst snd] in *. pose proof (pao_pop _ HA) as Hp.
    eapply safe_bind; [apply (safe_when _ _ _ _ (fun _ => True)); [intros _; apply safe_set_arg; exact I|exact I]|]. intros _ _.
    eapply safe_bind; [apply safe_np_argmin|]. intros gb [-> Hne].
    assert (Hg : Len d (nth (argmin f) X' [])).
    { apply (Forall_nth_lt _ _ _ _ G1). rewrite G2, <- G3. apply argmin_lt, Hne. }
    cbv zeta. eapply safe_bind; [apply safe_rec_alloc|]. intros nout _.
    eapply safe_bind; [apply safe_rec_write|]. intros r _.
    set (P := mkDEParams _ _ _ _ _ _ _ _ _ _ _ _ _ _ _).
    set (s := mkDES _ _ _ _ _ _).
    assert (HI : DEInv P (Len d) s).
    { constructor; cbn; auto; congruence. }
    assert (HPc : forall it s1, DEInv P (Len d) s1 ->
      CbLen d (Z.to_nat (a_popsize (dea A))) (d_pop (de_drv P (is_sync (dea_updating A) (dea A))) s1)
        (cb_state (de_drv P (is_sync (dea_updating A) (dea A))) it s1)).
    { intros it s1 [I1 I2 I3 I4]. split; [exact I1|]. split; [exact I3|exact I4]. }
    eapply safe_bind.
    { apply (safe_when _ _ _ _ (fun _ => True)); [|exact I]. intros _. apply safe_call_cb; [|exact I].
      apply (HPc 1%Z s HI). }
    intros _ _. eapply safe_conseq.
    - apply (safe_drive _ _ (de_drv P (is_sync (dea_updating A) (dea A))) (DEInv P (Len d))).
      + intros it s1 HI1.
        apply (safe_de_step_len P); cbn; rewrite ?lows_len, ?ups_len; auto; lia.
      + intros it s1 HI1. apply safe_ret; exact HI1.
      + intros it s1 HI1 _. apply (HPc it s1 HI1).
      + exact HI.
    - intros res (s1 & HI1 & -> & _). apply (di_best _ _ _ HI1).
  Qed.

  (** Every point that de evaluates has len(bounds) coordinates and the callback gets a popsize by
      len(bounds) array, also in runs that raise; x0, if given, is rectangular. *)
  Theorem C52_de A w a0 r st' :
    (forall x, a_x0 (dea A) = Some x -> nd_wf x) ->
    exec (de_minimize A) w a0 = (r, st') ->
    Shaped (nd_len (a_bounds (dea A))) (Z.to_nat (a_popsize (dea A))) (tr st').
  Proof. intros H Hx. eapply safe_shaped; [apply (safe_de_len A H)|exact Hx]. Qed.
  (** ** cpso *)
  Section DimPSO.
    Context (P : PSOParams) (Hl : length (ps_lower P) = ps_d P) (Hu : length (ps_upper P) = ps_d P).
    Let d := ps_d P.
    Context (HM : ModeKeeps (Len d) (ps_mode P)) (Pc : nmat -> CbState -> Prop).

    Record PInv (s : PSOS) : Prop := {
      qi_X : Forall (Len d) (pss_X s); qi_Xl : length (pss_X s) = ps_p P;
      qi_V : Forall (Len d) (pss_V s); qi_Vl : length (pss_V s) = ps_p P;
      qi_b : Forall (Len d) (pss_pbest s); qi_bl : length (pss_pbest s) = ps_p P;
      qi_fl : length (pss_pbestfit s) = ps_p P;
      qi_g : Len d (pss_gbest s) }.

    Lemma pso_mutation_len X V pb gb r1 r2 : Len d X -> Len d V -> Len d pb -> Len d gb -> Len d r1 -> Len d r2 ->
      Len d (fst (pso_mutation P X V pb gb r1 r2)) /\ Len d (snd (pso_mutation P X V pb gb r1 r2)).
    Proof.
      unfold Len. intros. unfold pso_mutation.
      assert (HV : length (velocity P X V pb gb r1 r2) = d).
      { unfold velocity. rewrite map2_length, !combine_length. vlia. }
      destruct (ps_con P); cbn [pso_cons fst snd]; unfold vadd; rewrite ?map2_length, ?map_length; vlia.
    Qed.

    Lemma safe_alias_len X (Q : unit -> Prop) : Q tt -> safe (Len d) Pc (pso_set_alias P X) Q.
    Proof. intros H. unfold pso_set_alias. apply safe_when; [|exact H]. intros _. apply safe_set_arg, H. Qed.

    Lemma safe_pso_step_len sync it s : PInv s -> safe (Len d) Pc (pso_step P sync it s) (fun r => PInv (fst r)).
    Proof.
      intros HI. unfold pso_step.
      eapply safe_bind; [apply safe_rand_mat, HE|]. intros r1 [Hr1 Hr1'].
      eapply safe_bind; [apply safe_rand_mat, HE|]. intros r2 [Hr2 Hr2'].
      assert (Hu1 : Forall (Len d) r1) by (eapply Forall_impl; [|exact Hr1']; intros x [Hx _]; exact Hx).
      assert (Hu2 : Forall (Len d) r2) by (eapply Forall_impl; [|exact Hr2']; intros x [Hx _]; exact Hx).
      clear Hr1' Hr2'.
      eapply safe_bind with (R := fun r => PInv (fst r)).
      { destruct sync.
        - unfold pso_sync.
          eapply safe_bind; [apply (safe_raise_if _ _ _ _ (fun _ => True)); auto|]. intros _ _. cbv zeta.
          assert (HXV : length (pso_moves P r1 r2 s) = ps_p P /\
                        Forall (fun xv => Len d (fst xv) /\ Len d (snd xv)) (pso_moves P r1 r2 s)).
          { destruct HI as [A1 A2 A3 A4 A5 A6 A7 A8]. unfold pso_moves. split.
            - rewrite map3_length, !combine_length. vlia.
            - apply Forall_forall. intros xv Hin. apply (In_nth _ _ (([] : nvec), ([] : nvec))) in Hin.
              destruct Hin as (i & Hi & <-). rewrite map3_length, !combine_length in Hi.
              rewrite map3_nth with (a := (([] : vec), ([] : vec))) (b := ([] : vec)) (c := (([] : vec), ([] : vec)))
                by (rewrite ?combine_length; vlia).
              rewrite !combine_nth by vlia. cbn [fst snd].
              apply pso_mutation_len; auto.
              + apply (Forall_nth_lt _ _ _ _ A1). vlia.
              + apply (Forall_nth_lt _ _ _ _ A3). vlia.
              + apply (Forall_nth_lt _ _ _ _ A5). vlia.
              + apply (Forall_nth_lt _ _ _ _ Hu1). vlia.
              + apply (Forall_nth_lt _ _ _ _ Hu2). vlia. }
          destruct HXV as [HL HXV]. set (XV := pso_moves P r1 r2 s) in *. clearbody XV.
          destruct HI as [A1 A2 A3 A4 A5 A6 A7 A8].
          eapply safe_bind.
          { unfold selection_sync. eapply safe_bind.
            - apply (safe_eval_pop _ _ (Len d) _ (map fst XV) HM); auto.
              apply Forall_forall. intros y Hy. apply in_map_iff in Hy. destruct Hy as (xv & <- & Hin).
              rewrite Forall_forall in HXV. apply HXV, Hin.
            - intros [U f] (HU & HUl & HF & _). cbn [fst snd] in *. rewrite map_length in *.
              eapply safe_bind; [apply safe_np_argmin|]. intros i [_ Hne].
              apply (safe_ret _ _ _ (fun sel : SelSync => Forall (Len d) (ss_x sel) /\ length (ss_x sel) = ps_p P /\
                length (ss_xfun sel) = ps_p P /\ Len d (ss_best sel) /\ Forall (Len d) (ss_cand sel) /\
                length (ss_cand sel) = ps_p P)). cbn.
              assert (HS : Forall (Len d) (sel_x U f (pss_pbest s) (pss_pbestfit s))) by (apply sel_x_Forall; auto).
              assert (HSL : length (sel_x U f (pss_pbest s) (pss_pbestfit s)) = ps_p P).
              { rewrite sel_x_length. vlia. }
              assert (HFL : length (sel_fun f (pss_pbestfit s)) = ps_p P).
              { unfold sel_fun. rewrite map2_length. vlia. }
              split; [exact HS|]. split; [exact HSL|]. split; [exact HFL|]. split; [|split; [exact HU|vlia]].
              apply (Forall_nth_lt _ _ _ _ HS). rewrite HSL, <- HFL. apply argmin_lt, Hne. }
          intros sel (S1 & S2 & S3 & S4 & S5 & S6). apply safe_ret. cbn. constructor; cbn; auto.
          + apply Forall_forall. intros y Hy. apply in_map_iff in Hy. destruct Hy as (xv & <- & Hin).
            rewrite Forall_forall in HXV. apply HXV, Hin.
          + rewrite map_length. exact HL.
        - unfold pso_async. eapply safe_bind.
          + apply (safe_foldM _ _ _ (fun a : PSOS * option Z => PInv (fst a))); [exact HI|].
            intros [s1 st] i Hi [A1 A2 A3 A4 A5 A6 A7 A8]. apply in_seq in Hi. unfold pso_async_one. cbn [fst] in *.
            cbv zeta.
            destruct (pso_mutation_len (nth i (pss_X s1) []) (nth i (pss_V s1) []) (nth i (pss_pbest s1) []) (pss_gbest s1)
                        (nth i r1 []) (nth i r2 [])) as [B1 B2]; auto.
            * apply (Forall_nth_lt _ _ _ _ A1). vlia.
            * apply (Forall_nth_lt _ _ _ _ A3). vlia.
            * apply (Forall_nth_lt _ _ _ _ A5). vlia.
            * apply (Forall_nth_lt _ _ _ _ Hu1). vlia.
            * apply (Forall_nth_lt _ _ _ _ Hu2). vlia.
            * set (xv := pso_mutation P _ _ _ _ _ _) in *. clearbody xv.
              eapply safe_bind; [apply (safe_alias_len _ (fun _ => True)); exact I|]. intros _ _.
              eapply safe_bind.
              { unfold selection_async. eapply safe_bind; [apply (safe_call_fun _ _ _ (fun _ => True)); auto|].
                intros y _. apply safe_ret with (Q := fun sel : SelAsync => Forall (Len d) (sa_x sel) /\
                  length (sa_x sel) = ps_p P /\ length (sa_xfun sel) = ps_p P /\ Len d (sa_best sel)).
                unfold async_sel. destruct (nleb y _); [|cbn; auto].
                destruct (nleb y _); cbn; rewrite !upd_length; auto using Forall_upd. }
              intros sel (S1 & S2 & S3 & S4). apply safe_ret. cbn.
              constructor; cbn; rewrite ?upd_length; auto using Forall_upd.
          + intros [s1 st] H. apply safe_ret. exact H. }
      intros [s1 st] HI1. eapply safe_bind; [apply safe_rec_write|]. intros r _.
      apply safe_ret. destruct HI1. constructor; assumption.
    Qed.

    Lemma upd_many_length {A} idx (rows l : list A) : length (upd_many idx rows l) = length l.
    Proof.
      revert rows l. induction idx as [|i idx IH]; intros [|r rows] l; cbn; auto.
      rewrite IH. apply upd_length.
    Qed.
    Lemma upd_many_all {A} (Q : A -> Prop) idx (rows l : list A) :
      Forall Q rows -> Forall Q l -> Forall Q (upd_many idx rows l).
    Proof.
      revert rows l. induction idx as [|i idx IH]; intros [|r rows] l Hr Hl'; cbn; auto.
      inversion Hr; subst. apply IH; auto using Forall_upd.
    Qed.

    Lemma safe_pso_post_len it s : PInv s -> safe (Len d) Pc (pso_post P it s) PInv.
    Proof.
      intros HI. unfold pso_post. destruct (ps_gamma P) as [g|]; [|apply safe_ret, HI].
      unfold restart. destruct (nltb _ _); [|apply safe_ret, HI].
      eapply safe_bind; [apply (safe_raise_if _ _ _ _ (fun _ => True)); auto|]. intros _ _.
      eapply safe_bind; [apply (safe_orelse _ _ _ _ (fun _ => True)); auto|]. intros nw _.
      destruct (0 <? nw)%Z; [|apply safe_ret, HI]. cbv zeta.
      eapply safe_bind.
      { eapply safe_bind; [apply safe_urange|]. intros _ _.
        apply (safe_replicateM _ _ _ _ (Len d)). eapply safe_conseq; [apply safe_row_len|].
        intros v Hv. cbv beta in Hv. unfold Len, d in *. vlia. }
      intros rows [Hrl Hrows]. eapply safe_bind; [apply (safe_alias_len _ (fun _ => True)); exact I|]. intros _ _.
      apply safe_ret. destruct HI as [A1 A2 A3 A4 A5 A6 A7 A8].
      constructor; cbn [pss_X pss_V pss_pbest pss_gbest pss_pbestfit]; rewrite ?upd_many_length; auto.
      - apply upd_many_all; auto.
      - apply upd_many_all; auto. apply Forall_forall. intros v Hv. apply repeat_spec in Hv. subst. apply repeat_length.
      - apply upd_many_all; auto. apply Forall_forall. intros y Hy. apply in_map_iff in Hy.
        destruct Hy as (i & <- & Hi).
        assert (HX : Forall (Len d) (upd_many (worst (pss_pbestfit s) (Z.to_nat nw)) rows (pss_X s))).
        { apply upd_many_all; auto. }
        apply (Forall_nth_lt _ _ _ _ HX). rewrite upd_many_length, A2, <- A7.
        eapply worst_lt; [|exact Hi]. apply (eo_argsort HE).
    Qed.
  End DimPSO.

  Lemma safe_cpso_len A : (forall x, a_x0 (pa A) = Some x -> nd_wf x) ->
    let d := nd_len (a_bounds (pa A)) in
    safe (Len d) (CbLen d (Z.to_nat (a_popsize (pa A)))) (cpso_minimize A) (fun r => Len d (r_x r)).
  Proof.
    intros HI0 d. unfold cpso_minimize. cbv zeta.
    eapply safe_bind; [apply safe_check_pop|]. intros ? HA. cbv beta in HA.
    do 5 (eapply safe_bind; [apply (safe_raise_if _ _ _ _ (fun _ => True)); auto|]; intros _ _).
    eapply safe_bind; [apply safe_seed_and_cb|]; intros _ _.
    unfold cpso. eapply safe_bind; [apply (safe_eval_kindM _ _ HE _ _ _ (Len d)); intros _; apply BcastKeeps_len, (eo_mpi HE)|].
    intros mode [HM _].
    cbv zeta. eapply safe_bind; [apply safe_unpack|]. intros lu (rows & Hb & ->).
    assert (Hd : d = length rows) by (unfold d; rewrite Hb; reflexivity).
    eapply safe_bind; [apply (safe_orelse _ _ _ _ (fun _ => True)); auto|]. intros con _.
    eapply safe_bind; [apply (safe_init HE _ _ _ rows _ _ Hb (InitLen _ _ Hb HI0 HA) HA)|]. intros X [HX1 HX2].
    rewrite <- Hd in HX2.
    eapply safe_bind; [apply (safe_raise_if _ _ _ _ (fun _ => True)); auto|]. intros _ _.
    eapply safe_bind; [apply (safe_eval_pop _ _ (Len d)); auto|]. intros [X' f] (G1 & G2 & G3 & _).
    cbn [fst snd] in *.
    eapply safe_bind; [apply (safe_when _ _ _ _ (fun _ => True)); [intros _; apply safe_set_arg; exact I|exact I]|]. intros _ _.
    eapply safe_bind; [apply safe_np_argmin|]. intros gb [-> Hne].
    assert (Hg : Len d (nth (argmin f) X' [])).
    { apply (Forall_nth_lt _ _ _ _ G1). rewrite G2, <- G3. apply argmin_lt, Hne. }
    eapply safe_bind; [apply safe_rec_alloc|]. intros nout _.
    eapply safe_bind; [apply safe_rec_write|]. intros r _.
    set (P := mkPSOParams _ _ _ _ _ _ _ _ _ _ _ _ _ _ _ _ _). set (s := mkPSOS _ _ _ _ _ _ _ _).
    assert (HIv : PInv P s).
    { constructor; cbn; auto.
      - exact (eq_trans G2 HX1).
      - apply Forall_forall. intros v Hv. apply repeat_spec in Hv. subst. apply repeat_length.
      - apply repeat_length.
      - exact (eq_trans G3 HX1). }
    assert (Hcb : forall it s1, PInv P s1 ->
      CbLen d (Z.to_nat (a_popsize (pa A))) (d_pop (pso_drv P (is_sync (pa_updating A) (pa A))) s1)
        (cb_state (pso_drv P (is_sync (pa_updating A) (pa A))) it s1)).
    { intros it s1 HI1. split; [exact (qi_Xl _ _ HI1)|]. split; [exact (qi_X _ _ HI1)|exact (qi_g _ _ HI1)]. }
    eapply safe_bind.
    { apply (safe_when _ _ _ _ (fun _ => True)); [|exact I]. intros _. apply safe_call_cb; [|exact I].
      apply (Hcb 1%Z s HIv). }
    intros _ _. eapply safe_conseq.
    - apply (safe_drive _ _ (pso_drv P (is_sync (pa_updating A) (pa A))) (PInv P)).
      + intros it s1 HI1. apply (safe_pso_step_len P); cbn; rewrite ?lows_len, ?ups_len; auto.
      + intros it s1 HI1. apply (safe_pso_post_len P); cbn; rewrite ?lows_len, ?ups_len; auto.
      + intros it s1 HI1 _. apply (Hcb it s1 HI1).
      + exact HIv.
    - intros res (s1 & HI1 & -> & _). apply (qi_g _ _ HI1).
  Qed.

  Theorem C52_cpso A w a0 r st' :
    (forall x, a_x0 (pa A) = Some x -> nd_wf x) ->
    exec (cpso_minimize A) w a0 = (r, st') ->
    Shaped (nd_len (a_bounds (pa A))) (Z.to_nat (a_popsize (pa A))) (tr st').
  Proof. intros H Hx. eapply safe_shaped; [apply (safe_cpso_len A H)|exact Hx]. Qed.
  Theorem C52_pso A w a0 r st' :
    (forall x, a_x0 (psa A) = Some x -> nd_wf x) ->
    exec (pso_minimize A) w a0 = (r, st') ->
    Shaped (nd_len (a_bounds (psa A))) (Z.to_nat (a_popsize (psa A))) (tr st').
  Proof. intros H. apply (C52_cpso (mkCPSOArgs (psa A) _ _ _ _ _) w a0 r st' H). Qed.

  (** ** na *)
  Section DimNA.
    Context (P : NAParams) (Hl : length (na_lower P) = na_d P) (Hu : length (na_upper P) = na_d P).
    Let d := na_d P.
    Context (HM : ModeKeeps (Len d) (na_mode P)) (Pc : nmat -> CbState -> Prop).

    Record NInv (s : NAS) : Prop := {
      mi_X : Forall (Len d) (nas_X s); mi_Xl : length (nas_X s) = na_p P;
      mi_b : Forall (Len d) (nas_pbest s); mi_bl : length (nas_pbest s) = na_p P;
      mi_fl : length (nas_pbestfit s) = na_p P;
      mi_g : Len d (nas_gbest s);
      mi_all : Forall (Len d) (nas_Xall s); mi_alll : length (nas_Xall s) = length (nas_Xallfit s);
      mi_ne : 0 < length (nas_Xall s) }.

    Lemma un_len x : Len d x -> Len d (unnormalize (na_lower P) (na_upper P) x).
    Proof. unfold Len, unnormalize, d in *. intros H. rewrite map3_length. vlia. Qed.
    Lemma un_lens X : Forall (Len d) X -> Forall (Len d) (map (unnormalize (na_lower P) (na_upper P)) X).
    Proof.
      intros H. apply Forall_forall. intros y Hy. apply in_map_iff in Hy. destruct Hy as (x & <- & Hx).
      rewrite Forall_forall in H. apply un_len, H, Hx.
    Qed.

    Lemma safe_na_eval_len X : Forall (Len d) X ->
      safe (Len d) Pc (na_eval P X) (fun r => fst r = X /\ length (snd r) = length X).
    Proof.
      intros HX. unfold na_eval. eapply safe_bind.
      - apply (safe_eval_pop _ _ (Len d) _ _ HM); [auto|]. apply un_lens, HX.
      - intros [? f] (_ & _ & H & _). apply safe_ret. rewrite map_length in H. auto.
    Qed.

    Lemma safe_na_mut_len Xall fit : Forall (Len d) Xall -> length Xall = length fit -> 0 < length Xall ->
      safe (Len d) Pc (na_mutation P Xall fit) (fun X => Forall (Len d) X /\ length X = na_p P).
    Proof.
      intros HX Hlx H0. unfold na_mutation. cbv zeta. eapply safe_conseq.
      - apply (safe_mapM _ _ _ _ (fun _ x => Len d x)). intros i _. unfold na_one. cbv zeta.
        set (ix := firstn (na_nr P) (e_argsort fit)). set (k := nth (i mod na_nr P) ix 0%nat).
        assert (Hk : k < length Xall).
        { unfold k. destruct (Nat.lt_ge_cases (i mod na_nr P) (length ix)) as [Hi|Hi].
          - assert (Hin : In (nth (i mod na_nr P) ix 0%nat) (e_argsort fit)).
            { rewrite <- (firstn_skipn (na_nr P) (e_argsort fit)). apply in_or_app. left. apply nth_In, Hi. }
            apply (Permutation_in _ (proj1 (eo_argsort HE) fit)), in_seq in Hin. rewrite Hlx. vlia.
          - rewrite nth_overflow by exact Hi. exact H0. }
        eapply safe_bind.
        + apply (safe_foldM _ _ _ (fun a : nvec * T * nvec => Len d (fst (fst a)))).
          * cbn [fst]. apply (Forall_nth_lt _ _ _ _ HX Hk).
          * intros [[x d1] d2] j Hj Ha. cbn [fst] in Ha. unfold na_axis, Len in *.
            destruct (negb _); [apply safe_ret; cbn; rewrite upd_length; exact Ha|].
            eapply safe_bind with (R := fun _ => True).
            { unfold uniform1, uniform. eapply safe_bind; [apply safe_urange|]. intros _ _.
              eapply safe_bind; [apply (safe_rand _ _ HE)|]. intros; apply safe_ret; exact I. }
            intros v _. cbv zeta. destruct (_ <? _); apply safe_ret; cbn [fst]; rewrite upd_length; exact Ha.
        + intros acc Ha. apply safe_ret. exact Ha.
      - intros X HF. split.
        + clear - HF. induction HF; constructor; auto.
        + apply Forall2_length in HF. rewrite seq_length in HF. symmetry. exact HF.
    Qed.

    Lemma safe_na_step_len it s : NInv s -> safe (Len d) Pc (na_step P it s) (fun r => NInv (fst r)).
    Proof.
      intros [H1 H1' H2 H3 H4 H5 H6 H7 H8]. unfold na_step.
      eapply safe_bind; [apply safe_na_mut_len; auto|]. intros X [HX HXl].
      eapply safe_bind.
      { unfold selection_sync. eapply safe_bind; [apply safe_na_eval_len, HX|].
        intros [U f] [HU HF]. cbn [fst snd] in *. subst U.
        eapply safe_bind; [apply safe_np_argmin|]. intros i [_ Hne].
        apply (safe_ret _ _ _ (fun sel : SelSync => Forall (Len d) (ss_x sel) /\ length (ss_x sel) = na_p P /\
            length (ss_xfun sel) = na_p P /\ Len d (ss_best sel) /\ length (ss_candfun sel) = length X)). cbn.
        assert (HS : Forall (Len d) (sel_x X f (nas_pbest s) (nas_pbestfit s))) by (apply sel_x_Forall; auto).
        assert (HSL : length (sel_x X f (nas_pbest s) (nas_pbestfit s)) = na_p P).
        { rewrite sel_x_length. vlia. }
        assert (HFL : length (sel_fun f (nas_pbestfit s)) = na_p P).
        { unfold sel_fun. rewrite map2_length. vlia. }
        split; [exact HS|]. split; [exact HSL|]. split; [exact HFL|]. split; [|exact HF].
        apply (Forall_nth_lt _ _ _ _ HS). rewrite HSL, <- HFL. apply argmin_lt, Hne. }
      intros sel (S1 & S2 & S3 & S4 & S5). cbv zeta.
      eapply safe_bind; [apply safe_rec_write|]. intros r _. apply safe_ret.
      constructor; cbn [fst nas_X nas_pbest nas_gbest nas_pbestfit nas_Xall nas_Xallfit]; auto.
      - apply Forall_app. auto.
      - rewrite !app_length. vlia.
      - rewrite app_length. vlia.
    Qed.
  End DimNA.

  Lemma safe_na_len A : (forall x, a_x0 (naa A) = Some x -> nd_wf x) ->
    let d := nd_len (a_bounds (naa A)) in
    safe (Len d) (CbLen d (Z.to_nat (a_popsize (naa A)))) (na_minimize A) (fun r => Len d (r_x r)).
  Proof.
    intros HI0 d. unfold na_minimize. cbv zeta.
    eapply safe_bind; [apply safe_check_pop|]. intros ? HA. cbv beta in HA.
    eapply safe_bind; [apply (safe_raise_if _ _ _ _ (fun _ => True)); auto|]; intros _ _.
    eapply safe_bind; [apply safe_seed_and_cb|]; intros _ _.
    unfold na. eapply safe_bind; [apply (safe_eval_kindM _ _ HE _ _ _ (Len d)); intros _; apply BcastKeeps_len, (eo_mpi HE)|].
    intros mode [HM _].
    cbv zeta. eapply safe_bind; [apply safe_unpack|]. intros lu (rows & Hb & ->).
    assert (Hd : d = length rows) by (unfold d; rewrite Hb; reflexivity).
    eapply safe_bind; [apply (safe_orelse _ _ _ _ (fun _ => True)); auto|]. intros nr _.
    eapply safe_bind; [apply (safe_init HE _ _ _ rows _ _ Hb (InitLen _ _ Hb HI0 HA) HA)|]. intros X [HX1 HX2].
    rewrite <- Hd in HX2. pose proof (pao_pop _ HA) as Hp.
    set (XN := map (normalize (lows rows) (ups rows)) X).
    assert (HXN : Forall (Len d) XN).
    { apply Forall_forall. intros y Hy. apply in_map_iff in Hy. destruct Hy as (x & <- & Hx).
      rewrite Forall_forall in HX2. specialize (HX2 _ Hx). unfold Len, normalize in *.
      rewrite map3_length, lows_len, ups_len. vlia. }
    assert (HXNl : length XN = Z.to_nat (a_popsize (naa A))) by (unfold XN; rewrite map_length; exact HX1).
    clearbody XN.
    set (P0 := mkNAParams _ _ _ _ _ _ _ _ _ _).
    eapply safe_bind; [apply (safe_na_eval_len P0); cbn; rewrite ?lows_len, ?ups_len; auto; exact HXN|].
    intros [X0 f] [G1 G3]. cbn [fst snd] in G1, G3. subst X0.
    eapply safe_bind; [apply safe_np_argmin|]. intros gb [-> Hne].
    assert (Hg : Len d (nth (argmin f) XN [])).
    { apply (Forall_nth_lt _ _ _ _ HXN). rewrite <- G3. apply argmin_lt, Hne. }
    eapply safe_bind; [apply safe_rec_alloc|]. intros nout _.
    eapply safe_bind; [apply safe_rec_write|]. intros r _.
    set (P := mkNAParams _ _ _ _ _ _ _ _ _ nout). set (s := mkNAS _ _ _ _ _ _ _ _ _).
    assert (HLo : length (na_lower P) = na_d P) by (cbn; rewrite lows_len; auto).
    assert (HUp : length (na_upper P) = na_d P) by (cbn; rewrite ups_len; auto).
    assert (HIv : NInv P s).
    { constructor; cbn; auto; vlia. }
    assert (Hcb : forall it s1, NInv P s1 ->
      CbLen d (Z.to_nat (a_popsize (naa A))) (d_pop (na_drv P) s1) (cb_state (na_drv P) it s1)).
    { intros it s1 HI1. split; [cbn; rewrite map_length; exact (mi_Xl _ _ HI1)|]. split.
      - apply (un_lens P HLo HUp), (mi_X _ _ HI1).
      - apply (un_len P HLo HUp), (mi_g _ _ HI1). }
    eapply safe_bind.
    { apply (safe_when _ _ _ _ (fun _ => True)); [|exact I]. intros _. apply safe_call_cb; [|exact I].
      apply (Hcb 1%Z s HIv). }
    intros _ _. eapply safe_conseq.
    - apply (safe_drive _ _ (na_drv P) (NInv P)).
      + intros it s1 HI1. apply (safe_na_step_len P HLo HUp HM _ it s1 HI1).
      + intros it s1 HI1. apply safe_ret, HI1.
      + intros it s1 HI1 _. apply (Hcb it s1 HI1).
      + exact HIv.
    - intros res (s1 & HI1 & -> & _). apply (un_len P HLo HUp), (mi_g _ _ HI1).
  Qed.

  Theorem C52_na A w a0 r st' :
    (forall x, a_x0 (naa A) = Some x -> nd_wf x) ->
    exec (na_minimize A) w a0 = (r, st') ->
    Shaped (nd_len (a_bounds (naa A))) (Z.to_nat (a_popsize (naa A))) (tr st').
  Proof. intros H Hx. eapply safe_shaped; [apply (safe_na_len A H)|exact Hx]. Qed.

  (** ** cmaes, vdcma *)
  Lemma safe_cma_bad A Pe Pc {R} (k : nvec * CMAParams -> M R) Q :
    (forall rows, a_bounds (caa A) <> D2 2 rows) ->
    safe Pe Pc (cma_check A ;;; bind (cma_setup A) k) Q.
  Proof.
    intros Hb. eapply safe_bind with (R := fun _ => True).
    { unfold cma_check. cbv zeta.
      do 5 (eapply safe_bind; [apply (safe_raise_if _ _ _ _ (fun _ => True)); auto|]; intros _ _).
      eapply safe_conseq; [apply safe_seed_and_cb|]. auto. }
    intros _ _. eapply safe_bind with (R := fun _ => False); [|intros ? []].
    unfold cma_setup. cbv zeta.
    eapply safe_bind; [apply (safe_eval_kindM _ _ HE _ _ _ (Len 0)); intros _; apply BcastKeeps_len, (eo_mpi HE)|]. intros mode _.
    eapply safe_bind; [apply safe_unpack|]. intros lu (rows & Hr & _). exfalso. exact (Hb rows Hr).
  Qed.

  Lemma bounds_cases (b : nd) : (exists rows, b = D2 2 rows) \/ (forall rows, b <> D2 2 rows).
  Proof. destruct b as [x|v|[|[|[|c]]] m]; try (right; discriminate). left. exists m; reflexivity. Qed.

  Section Cma.
    Context (A : CMAArgs).
    Let d := nd_len (a_bounds (caa A)).

    Lemma clip_len rows : a_bounds (caa A) = D2 2 rows -> forall x : nvec, length x = length rows ->
      Len d (if is_pen A then map clip1 x else x).
    Proof. intros Hb x Hx. unfold Len, d. rewrite Hb. destruct (is_pen A); cbn; rewrite ?map_length; exact Hx. Qed.
    Lemma unstd_len rows : a_bounds (caa A) = D2 2 rows -> forall x, Len d x ->
      Len d (unstandardize (cma_xm (lows rows) (ups rows)) (cma_xstd (lows rows) (ups rows)) x).
    Proof.
      intros Hb x. unfold Len, d. rewrite Hb. cbn. intros Hx.
      unfold unstandardize, cma_xm, cma_xstd, vadd, vmul. rewrite !map2_length, lows_len, ups_len. vlia.
    Qed.

    Theorem C52_cmaes (HEig : EighRows) w a0 r st' :
      exec (cmaes_minimize A) w a0 = (r, st') ->
      Shaped d (Z.to_nat (a_popsize (caa A))) (tr st').
    Proof.
      destruct (bounds_cases (a_bounds (caa A))) as [(rows & Hb)|Hb]; intros Hx.
      - eapply safe_shaped; [|exact Hx].
        apply (safe_cmaes HE A rows Hb (Len d) (Len d) (clip_len rows Hb) (unstd_len rows Hb)
          (fun _ => BcastKeeps_len d (eo_mpi HE)) HEig).
      - eapply safe_shaped; [|exact Hx]. unfold cmaes_minimize, cmaes.
        apply (safe_cma_bad A (Len d) _ _ (fun _ => True) Hb).
    Qed.

    Theorem C52_vdcma w a0 r st' :
      exec (vdcma_minimize A) w a0 = (r, st') ->
      Shaped d (Z.to_nat (a_popsize (caa A))) (tr st').
    Proof.
      destruct (bounds_cases (a_bounds (caa A))) as [(rows & Hb)|Hb]; intros Hx.
      - eapply safe_shaped; [|exact Hx].
        apply (safe_vdcma HE A rows Hb (Len d) (Len d) (clip_len rows Hb) (unstd_len rows Hb)
          (fun _ => BcastKeeps_len d (eo_mpi HE))).
      - eapply safe_shaped; [|exact Hx]. unfold vdcma_minimize, vdcma.
        apply (safe_cma_bad A (Len d) _ _ (fun _ => True) Hb).
    Qed.
  End Cma.

  (** ** mcmc *)
  Section DimMC.
    Context (P : MCParams) (Hst : length (mc_step P) = mc_d P).
    Let d := mc_d P.
    Context (Pc : nmat -> CbState -> Prop).

    Definition ChLen (c : Chain) : Prop := Forall (Len d) (ch_x c) /\ 0 < length (ch_x c).

    Lemma ch_last_len c : ChLen c -> Len d (ch_last_x c).
    Proof. intros [H1 H2]. unfold ch_last_x. apply (Forall_nth_lt _ _ _ _ H1). vlia. Qed.

    Lemma safe_call_scb Pe x st (Q : unit -> Prop) : Q tt -> safe Pe Pc (call_scb x st) Q.
    Proof.
      intros H s. unfold call_scb. destruct (e_scb x st (rs s)) as [r w]; cbn.
      eexists. split; [reflexivity|]. split; [repeat constructor|]. intros [] _; exact H.
    Qed.

    Lemma safe_mc_propose j x : Len d x -> safe (Len d) Pc (mc_propose P j x) (Len d).
    Proof.
      intros Hx. unfold mc_propose. cbv zeta.
      eapply safe_bind; [apply (safe_randn_vec (Len d) Pc)|]. intros z Hz. cbv beta in Hz.
      eapply safe_bind; [apply (safe_raise_if _ _ _ _ (fun _ =>
        length (slice j (Nat.min (mc_d P) (j + mc_b P - 1) + 1) (mc_step P)) = Nat.min (mc_d P) (j + mc_b P - 1) - j + 1))|].
      { intros H. apply negb_false_iff, Nat.eqb_eq in H. exact H. }
      intros ? Hs. cbv beta in Hs. apply safe_ret. unfold Len in *.
      set (jm := Nat.min (mc_d P) (j + mc_b P - 1)) in *. clearbody jm.
      unfold slice in *. rewrite firstn_length, skipn_length, Hst in Hs. fold d in Hs.
      unfold vadd, vmul. rewrite !app_length, !map2_length, !firstn_length, !skipn_length, Hst. fold d. vlia.
    Qed.

    Lemma safe_s_cb a c (Q : unit -> Prop) : Q tt -> safe (Len d) Pc (s_cb a c) Q.
    Proof. intros H. unfold s_cb. apply safe_when; [|exact H]. intros _. apply safe_call_scb, H. Qed.

    Lemma accept_len c y fy : ChLen c -> Len d y -> ChLen (ch_accept c y fy).
    Proof.
      intros [H1 H2] Hy. unfold ch_accept. destruct (if nltb _ _ then _ else _) as [i f]. split; cbn.
      - apply Forall_app. split; [exact H1|repeat constructor; exact Hy].
      - rewrite app_length. vlia.
    Qed.
    Lemma reject_len c : ChLen c -> ChLen (ch_reject c).
    Proof.
      intros H. pose proof (ch_last_len c H) as Hl. destruct H as [H1 H2]. split; cbn.
      - apply Forall_app. split; [exact H1|repeat constructor; exact Hl].
      - rewrite app_length. vlia.
    Qed.

    Lemma safe_mc_move j c : ChLen c -> safe (Len d) Pc (mc_move P j c) ChLen.
    Proof.
      intros Hc. unfold mc_move. eapply safe_bind; [apply safe_mc_propose, ch_last_len, Hc|]. intros y Hy.
      eapply safe_bind with (R := ChLen).
      - destruct (in_search_space _ _ _ _).
        + eapply safe_bind; [apply (safe_call_fun _ _ _ (fun _ => True)); [exact Hy|auto]|]. intros fy _.
          eapply safe_bind; [apply (safe_rand _ _ HE)|]. intros u _. apply safe_ret.
          destruct (metropolis _ _); [apply accept_len|apply reject_len]; auto.
        + apply safe_ret, reject_len, Hc.
      - intros c' Hc'. eapply safe_bind; [apply (safe_s_cb _ _ (fun _ => True)); exact I|]. intros _ _.
        apply safe_ret, Hc'.
    Qed.

    Lemma safe_mc_inner js c : ChLen c -> safe (Len d) Pc (mc_inner P js c) ChLen.
    Proof.
      revert c. induction js as [|j js IH]; intros c Hc; cbn; [apply safe_ret, Hc|].
      eapply safe_bind; [apply safe_mc_move, Hc|]. intros c' Hc'. destruct (mc_full P c'); [apply safe_ret, Hc'|apply IH, Hc'].
    Qed.

    Lemma safe_mc_outer fl c : ChLen c -> safe (Len d) Pc (mc_outer P fl c) ChLen.
    Proof.
      revert c. induction fl as [|fl IH]; intros c Hc; cbn [mc_outer]; destruct (_ <? _)%Z; try apply safe_raise; try (apply safe_ret, Hc).
      eapply safe_bind; [apply safe_mc_inner, Hc|]. intros c' Hc'. apply IH, Hc'.
    Qed.
  End DimMC.

  Lemma safe_mcmc_len A : let d := nd_len (s_bounds (mca A)) in
    safe (Len d) (CbLen d 0) (mcmc_sample A) (fun _ => True).
  Proof.
    intros d. unfold mcmc_sample, mcmc_fuel. cbv zeta.
    eapply safe_bind with (R := fun lu => exists rows, s_bounds (mca A) = D2 2 rows /\ lu = (lows rows, ups rows) /\
      forall v, s_x0 (mca A) = Some (D1 v) -> Len d v).
    { unfold s_check_x0.
      do 2 (eapply safe_bind; [apply (safe_raise_if _ _ _ _ (fun _ => True)); auto|]; intros _ _).
      eapply safe_bind; [apply safe_unpack|]. intros lu (rows & Hb & ->).
      eapply safe_bind with (R := fun _ => forall v, s_x0 (mca A) = Some (D1 v) -> Len d v).
      - destruct (s_x0 (mca A)) as [[x|v|c m]|].
        + apply safe_raise.
        + apply safe_raise_if. intros H w Hw. injection Hw as <-. apply negb_false_iff, Nat.eqb_eq in H. exact H.
        + apply safe_raise_if. intros _ w Hw. discriminate.
        + apply safe_ret. discriminate.
      - intros _ Hx. apply safe_ret. exists rows. auto. }
    intros lu (rows & Hb & -> & Hx0).
    assert (Hd : d = length rows) by (unfold d; rewrite Hb; reflexivity).
    eapply safe_bind with (R := Len d).
    { unfold s_steps. cbv zeta. set (st := match s_stepsize (mca A) with D0 x => _ | y => y end).
      eapply safe_bind; [apply (safe_raise_if _ _ _ _ (fun _ => nd_len st = d))|].
      { intros H. apply negb_false_iff, Nat.eqb_eq in H. exact H. }
      intros ? Hs. cbv beta in Hs. destruct st as [x|v|c m]; try apply safe_raise.
      eapply safe_bind; [apply (safe_when _ _ _ _ (fun _ => True)); [intros _; apply safe_set_arg; exact I|exact I]|].
      intros _ _. apply safe_ret. unfold Len. rewrite map2_length, combine_length, lows_len, ups_len. cbn in Hs. vlia. }
    intros steps Hst.
    eapply safe_bind; [apply (safe_raise_if _ _ _ _ (fun _ => True)); auto|]; intros _ _.
    eapply safe_bind; [apply (safe_orelse _ _ _ _ (fun _ => True)); auto|]; intros b _.
    eapply safe_bind with (R := fun _ => True).
    { unfold s_seed_cb. eapply safe_bind; [apply (safe_seed _ _ _ (fun _ => True)); exact I|]. intros _ _.
      apply safe_raise_if; auto. }
    intros _ _. eapply safe_bind with (R := Len d).
    { unfold s_first. eapply safe_bind; [apply (safe_raise_if _ _ _ _ (fun _ => True)); auto|]; intros _ _.
      eapply safe_bind with (R := Len d).
      - destruct (s_x0 (mca A)) as [[x|v|c m]|]; try apply safe_raise.
        + apply safe_ret, Hx0; reflexivity.
        + eapply safe_conseq; [apply safe_uniform_len|]. intros v Hv. cbv beta in Hv.
          rewrite lows_len, ups_len in Hv. unfold Len. vlia.
      - intros x Hx. eapply safe_bind; [apply (safe_raise_if _ _ _ _ (fun _ => True)); auto|]; intros _ _.
        apply safe_ret, Hx. }
    intros x Hx. eapply safe_bind; [apply (safe_call_fun _ _ _ (fun _ => True)); [exact Hx|auto]|]. intros f _.
    eapply safe_bind with (R := fun _ => True).
    { unfold s_first_cb. apply safe_when; [|exact I]. intros _. apply safe_call_scb; exact I. }
    intros _ _. set (P := mkMCParams _ _ _ _ _ _ _).
    eapply safe_bind.
    { apply (safe_mc_outer P Hst). split; cbn; [repeat constructor; exact Hx|lia]. }
    intros c _. apply safe_ret; exact I.
  Qed.

  Theorem C52_mcmc A w a0 r st' : exec (mcmc_sample A) w a0 = (r, st') ->
    forall x, In x (points (tr st')) -> length x = nd_len (s_bounds (mca A)).
  Proof.
    intros Hx. destruct (safe_shaped _ _ _ _ _ _ _ _ (safe_mcmc_len A) Hx) as [H _]. exact H.
  Qed.
End DimsRun.
