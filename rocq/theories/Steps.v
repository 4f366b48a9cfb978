(** The generations of DE, CPSO and NA, as programs, follow [GenStep]. *)
From Verif Require Import Base Num Env Common DE CPSO NA Hoare EvalRules Gen.

Section DEStep.
  Context {N : Num} {E : Env N}.
  (** [TR i X gb u]: u is a proper candidate for individual i *)
  Variables (P : DEParams) (sync : bool) (C CX : vec -> Prop)
            (TR : nat -> matrix -> vec -> vec -> Prop).
  Hypothesis Hp : 0 < de_p P.
  Hypothesis Hmode : ModeOK (de_mode P).
  Hypothesis Hasync : sync = false -> de_mode P = Serial.
  Hypothesis HCX : forall u, C u -> CX u.
  Hypothesis HB : de_mode P = Mpi -> forall n U, Forall C U -> Forall C (e_bcast n U).
  Hypothesis Hcands : forall (r1 X : matrix) gb,
    length r1 = de_p P -> Forall (draws (de_d P)) r1 ->
    length X = de_p P -> Forall CX X -> CX gb ->
    quiet (de_cands P r1 X gb) (fun U => length U = de_p P /\ Forall C U /\
                                 forall i, i < de_p P -> TR i X gb (nth i U [])).
  Hypothesis Hcand1 : forall (r1 : vec) i (X : matrix) gb,
    i < de_p P -> draws (de_d P) r1 -> length X = de_p P -> Forall CX X -> CX gb ->
    quiet (de_cand1 P r1 i X gb) (fun u => C u /\ TR i X gb u).

  (** The candidates of a generation: in immediate mode candidate i is made when the candidates
      before it have already been selected. *)
  Definition DETrials (q : Q4) (cand : matrix) (cf : vec) : Prop :=
    Forall C cand /\
    (de_mode P <> Mpi -> forall i, i < de_p P ->
     let qi := if sync then q
               else fst (asyncs (de_xtol P) (de_ftol P) 0 (firstn i (combine cand cf)) q None) in
     TR i (qx qi) (qb qi) (nth i cand [])).

  Definition des_q (s : DES) : Q4 :=
    mkQ4 (des_X s) (des_pbestfit s) (des_gbest s) (des_gfit s).

  Definition de_shape (s : DES) : Prop :=
    length (des_X s) = de_p P /\ length (des_pbestfit s) = de_p P /\
    length (des_pfit s) = de_p P /\ Forall CX (des_X s) /\ CX (des_gbest s).

  Definition de_arg (s : DES) (b0 b : option matrix) : Prop :=
    if de_alias P then b = Some (des_X s) else b = b0.

  Definition de_body_post (it : Z) (s : DES) (st : St) (r : DES * option Z) (st' : St) : Prop :=
    exists evs cand cf,
      tr st' = tr st ++ evs /\
      GenStep (fun x => x) (de_mode P) sync it (de_maxiter P) (de_xtol P) (de_ftol P) (de_p P)
              (des_q s) (des_q (fst r)) (snd r) evs cand cf /\
      DETrials (des_q s) cand cf /\ des_pfit (fst r) = cf /\ de_shape (fst r) /\
      des_rec (fst r) = des_rec s /\
      de_arg (fst r) (argbuf st) (argbuf st').

  Lemma set_alias_rule X (Q : unit -> St -> Prop) s :
    (forall s', tr s' = tr s -> argbuf s' = (if de_alias P then Some X else argbuf s) -> Q tt s') ->
    wp (set_alias P X) Q NF s.
  Proof.
    intros H. unfold set_alias. apply wp_when; intros Ha.
    - apply wp_set_arg. apply H; cbn; rewrite ?Ha; auto.
    - apply H; rewrite ?Ha; auto.
  Qed.

  Lemma de_sync_spec it (r1 : matrix) s st :
    sync = true -> length r1 = de_p P -> Forall (draws (de_d P)) r1 ->
    de_shape s -> wp (de_sync P it r1 s) (de_body_post it s st) NF st.
  Proof.
    intros Hs Hr1 Hr1' (HX & Hpb & Hpf & HFX & HCg). unfold de_sync.
    eapply wp_quiet_NF; [apply Hcands; auto|]. intros U s1 Ht1 Hb1 (HU & HCU & HTU).
    apply wp_bind.
    eapply (wp_selection_sync _ _ _ _ _ _ _ _ _ (de_p P) (de_mode P) (fun x => x) (Forall C)); auto.
    - apply wp_eval_pop_rule; auto.
    - intros X' f s2 evs Hf HX' HC' Ht2 Hc2 Hs2 Hb2 Hev.
      apply wp_bind, set_alias_rule. intros s3 Ht3 Hb3. apply wp_ret.
      exists evs, X', f. rewrite Ht3, Ht2, Ht1. cbn [fst snd des_pfit des_rec].
      split; [reflexivity|]. split.
      { constructor; auto.
        - rewrite Hs. exact Hs2.
        - intros Hm. destruct (Hev Hm) as (_ & l & Hl); exists l; exact Hl.
        - rewrite Hs. reflexivity. }
      split.
      { split; [exact HC'|]. intros Hm i Hi. rewrite Hs. cbn zeta. destruct (Hev Hm) as [-> _].
        apply HTU, Hi. }
      split; [reflexivity|].
      assert (Hsx : length (sel_x X' f (des_X s) (des_pbestfit s)) = de_p P)
        by (apply sel_x_length; auto).
      assert (Hsf : length (sel_fun f (des_pbestfit s)) = de_p P)
        by (apply sel_fun_length; auto).
      assert (HFs : Forall CX (sel_x X' f (des_X s) (des_pbestfit s))).
      { apply sel_x_Forall; auto. eapply Forall_impl; [|exact HC']; auto. }
      split; [|split; [reflexivity|]].
      + repeat split; cbn; auto.
        rewrite Forall_nth' in HFs. apply HFs.
        rewrite Hsx. rewrite <- Hsf. apply argmin_lt.
        intros Hn; rewrite Hn in Hsf; cbn in Hsf; lia.
      + unfold de_arg. rewrite Hb3. destruct (de_alias P); cbn; congruence.
  Qed.

  Lemma de_async_spec it (r1 : matrix) s st :
    sync = false -> length r1 = de_p P -> Forall (draws (de_d P)) r1 ->
    de_shape s -> (de_alias P = true -> argbuf st = Some (des_X s)) ->
    wp (de_async P it r1 s) (de_body_post it s st) NF st.
  Proof.
    intros Hs Hr1 Hr1' Hsh Harg. unfold de_async. apply wp_bind.
    eapply wp_conseq;
      [apply (wp_foldM (de_async_one P r1) (seq 0 (de_p P))
        (fun done acc st' => exists cand cf,
           length cand = length done /\ length cf = length done /\
           tr st' = tr st ++ map ok (combine cand cf) /\
           asyncs (de_xtol P) (de_ftol P) 0 (combine cand cf) (des_q s) None
             = (des_q (fst acc), snd acc) /\
           (Forall C cand /\ forall i, i < length done ->
             let qi := fst (asyncs (de_xtol P) (de_ftol P) 0 (firstn i (combine cand cf))
                                   (des_q s) None) in
             TR i (qx qi) (qb qi) (nth i cand [])) /\
           firstn (length done) (des_pfit (fst acc)) = cf /\
           de_shape (fst acc) /\ des_rec (fst acc) = des_rec s /\
           de_arg (fst acc) (argbuf st) (argbuf st')) NF [] (s, None) st)| |auto].
    - exists [], []. cbn. rewrite app_nil_r. repeat split; auto; try apply Hsh; try (intros; lia).
      unfold de_arg. destruct (de_alias P); auto.
    - intros pre i post [a ast] s1 Hseq (cand & cf & Hc & Hf & Ht & Has & [HC HT] & Hpf & Hsh1 & Hrec & Hb).
      destruct (seq_split_at _ _ _ _ Hseq) as [-> Hi].
      cbn [fst snd app] in *. unfold de_async_one. cbn [fst].
      destruct Hsh1 as (HX1 & Hpb1 & Hpf1 & HF1 & Hg1).
      eapply wp_quiet_NF.
      { apply Hcand1; auto. rewrite Forall_nth' in Hr1'. apply Hr1'. lia. }
      intros u s2 Ht2 Hb2 [Hu HTu]. apply wp_bind, wp_selection_async.
      intros y s3 Ht3 Hb3. apply wp_bind, set_alias_rule. intros s4 Ht4 Hb4. apply wp_ret.
      exists (cand ++ [u]), (cf ++ [y]). rewrite !app_length. cbn [length fst snd].
      rewrite combine_snoc by lia.
      split; [lia|]. split; [lia|]. split.
      { rewrite Ht4, Ht3, Ht2, Ht, map_app, <- app_assoc. reflexivity. }
      split.
      { rewrite asyncs_app, Has. rewrite combine_length, Hc, Hf, Nat.min_id. reflexivity. }
      split.
      { split; [apply Forall_app; auto|]. intros k Hk. cbn zeta.
        rewrite firstn_app, combine_length, Hc, Hf, Nat.min_id.
        destruct (Nat.eq_dec k (length pre)) as [->|Hn].
        - rewrite Nat.sub_diag, firstn_all2 by (rewrite combine_length; lia).
          cbn [firstn]. rewrite app_nil_r, Has, app_nth2, Hc, Nat.sub_diag by lia. exact HTu.
        - replace (k - length pre) with 0 by lia. cbn [firstn].
          rewrite app_nil_r, app_nth1 by lia. apply HT. lia. }
      split.
      { cbn [des_pfit]. rewrite Nat.add_1_r, firstn_upd by lia. rewrite Hpf.
        f_equal. f_equal. unfold async_sel.
        destruct (nleb y _); [destruct (nleb y _)|]; reflexivity. }
      split; [|split; [exact Hrec|]].
      + unfold de_shape. cbn [des_X des_pbestfit des_pfit des_gbest].
        rewrite upd_length. unfold async_sel.
        destruct (nleb y _); [destruct (nleb y _)|]; cbn; rewrite ?upd_length; repeat split; auto;
          apply Forall_upd; auto.
      + unfold de_arg in *. cbn [des_X]. rewrite Hb4. destruct (de_alias P); congruence.
    - intros [a ast] s1 (cand & cf & Hc & Hf & Ht & Has & [HC HT] & Hpf & Hsh1 & Hrec & Hb).
      cbn [fst snd app] in *. rewrite seq_length in *. apply wp_ret.
      exists (map ok (combine cand cf)), cand, cf. cbn [fst snd].
      split; [exact Ht|]. split.
      { constructor; auto.
        - apply cbs_ok.
        - rewrite Hs. apply Shares_ok. discriminate.
        - intros _. exists (combine cand cf). rewrite map_id. auto.
        - rewrite Hs. cbn [gen_next]. rewrite Has. reflexivity. }
      split; [split; [exact HC|]; intros _ i Hi; rewrite Hs; apply HT; exact Hi|]. split.
      { rewrite <- Hpf. symmetry. apply firstn_all2. destruct Hsh1 as (_ & _ & -> & _). lia. }
      split; [exact Hsh1|]. split; [exact Hrec|exact Hb].
  Qed.

  Definition de_step_post (it : Z) (s : DES) (st : St) (r : DES * option Z) (st' : St) : Prop :=
    exists evs cand cf,
      tr st' = tr st ++ evs /\
      GenStep (fun x => x) (de_mode P) sync it (de_maxiter P) (de_xtol P) (de_ftol P) (de_p P)
              (des_q s) (des_q (fst r)) (snd r) evs cand cf /\
      DETrials (des_q s) cand cf /\ des_pfit (fst r) = cf /\ de_shape (fst r) /\
      RecW (de_nout P) (de_maxiter P) it (des_X (fst r)) cf (best_row (des_X (fst r)) cf)
           (des_rec s) (des_rec (fst r)) /\
      de_arg (fst r) (argbuf st) (argbuf st').

  Lemma de_step_spec it s st :
    de_shape s -> (de_alias P = true -> argbuf st = Some (des_X s)) ->
    wp (de_step P sync it s) (de_step_post it s st) NF st.
  Proof.
    intros Hsh Harg. unfold de_step.
    eapply wp_quiet_NF; [apply quiet_draws|]. intros r1 s1 Ht1 Hb1 [Hr1 Hr1'].
    apply wp_bind, wp_raise_if; [discriminate|]. intros _. apply wp_bind.
    assert (Hbody : wp (if sync then de_sync P it r1 s else de_async P it r1 s)
                       (de_body_post it s s1) NF s1).
    { destruct sync eqn:Hs; [apply de_sync_spec|apply de_async_spec]; auto.
      rewrite Hb1; auto. }
    eapply wp_post; [exact Hbody|]. intros [s' c] s2 (evs & cand & cf & Ht & HG & HC & Hpf & Hsh' & Hrec & Hb).
    cbn [fst snd] in *. apply wp_bind, wp_rec_write. intros r' HR. apply wp_ret.
    exists evs, cand, cf. cbn [fst snd des_X des_pfit des_rec].
    split; [congruence|]. split; [exact HG|]. split; [exact HC|]. split; [exact Hpf|].
    split; [exact Hsh'|]. split; [rewrite <- Hpf, <- Hrec; exact HR|].
    unfold de_arg in *; cbn [des_X]. rewrite Hb1 in Hb. exact Hb.
  Qed.
End DEStep.

Section PSOStep.
  Context {N : Num} {E : Env N}.
  Variables (P : PSOParams) (sync : bool) (CX CV CP : vec -> Prop).
  Hypothesis Hp : 0 < ps_p P.
  Hypothesis Hmode : ModeOK (ps_mode P).
  Hypothesis Hasync : sync = false -> ps_mode P = Serial.
  Hypothesis HCP : forall u, CX u -> CP u.
  Hypothesis HB : ps_mode P = Mpi -> forall n U, Forall CX U -> Forall CX (e_bcast n U).
  Hypothesis Hmut : forall x v pb gb r1 r2,
    CX x -> CV v -> CP pb -> CP gb -> length r1 = ps_d P -> length r2 = ps_d P ->
    CX (fst (pso_mutation P x v pb gb r1 r2)) /\ CV (snd (pso_mutation P x v pb gb r1 r2)).
  Hypothesis Huni : quiet (uniform_row (ps_lower P) (ps_upper P)) CX.
  Hypothesis Hzero : CV (repeat n0 (ps_d P)).

  Definition pss_q (s : PSOS) : Q4 :=
    mkQ4 (pss_pbest s) (pss_pbestfit s) (pss_gbest s) (pss_gfit s).

  Definition pso_shape (s : PSOS) : Prop :=
    length (pss_X s) = ps_p P /\ length (pss_V s) = ps_p P /\ length (pss_pbest s) = ps_p P /\
    length (pss_pbestfit s) = ps_p P /\ length (pss_pfit s) = ps_p P /\
    Forall CX (pss_X s) /\ Forall CV (pss_V s) /\ Forall CP (pss_pbest s) /\ CP (pss_gbest s).

  Definition pso_arg (s : PSOS) (b0 b : option matrix) : Prop :=
    if ps_alias P then b = Some (pss_X s) else b = b0.

  Definition pso_body_post (it : Z) (s : PSOS) (st : St) (r : PSOS * option Z) (st' : St) : Prop :=
    exists evs cf,
      tr st' = tr st ++ evs /\
      GenStep (fun x => x) (ps_mode P) sync it (ps_maxiter P) (ps_xtol P) (ps_ftol P) (ps_p P)
              (pss_q s) (pss_q (fst r)) (snd r) evs (pss_X (fst r)) cf /\
      pss_pfit (fst r) = cf /\ pso_shape (fst r) /\ pss_rec (fst r) = pss_rec s /\
      (sync = false -> pso_arg (fst r) (argbuf st) (argbuf st')) /\
      (sync = true -> argbuf st' = argbuf st).

  Lemma pso_set_alias_rule X (Q : unit -> St -> Prop) s :
    (forall s', tr s' = tr s -> argbuf s' = (if ps_alias P then Some X else argbuf s) -> Q tt s') ->
    wp (pso_set_alias P X) Q NF s.
  Proof.
    intros H. unfold pso_set_alias. apply wp_when; intros Ha.
    - apply wp_set_arg. apply H; cbn; rewrite ?Ha; auto.
    - apply H; rewrite ?Ha; auto.
  Qed.

  Lemma Forall_map3 {A B D F} (Q : F -> Prop) (f : A -> B -> D -> F) l1 l2 l3 :
    (forall a b c, In a l1 -> In b l2 -> In c l3 -> Q (f a b c)) -> Forall Q (map3 f l1 l2 l3).
  Proof.
    revert l2 l3; induction l1 as [|a l1 IH]; intros [|b l2] [|c l3] H; cbn; constructor.
    - apply H; left; reflexivity.
    - apply IH; intros; apply H; right; assumption.
  Qed.

  Lemma pso_moves_spec (r1 r2 : matrix) s :
    pso_shape s ->
    length r1 = ps_p P -> Forall (fun r : vec => length r = ps_d P) r1 ->
    length r2 = ps_p P -> Forall (fun r : vec => length r = ps_d P) r2 ->
    let XV := pso_moves P r1 r2 s in
    length (map fst XV) = ps_p P /\ length (map snd XV) = ps_p P /\
    Forall CX (map fst XV) /\ Forall CV (map snd XV).
  Proof.
    intros (HX & HV & Hpb & Hpf & Hpf' & HFX & HFV & HFP & HCg) Hr1 Hr1' Hr2 Hr2' XV.
    assert (HXV : length XV = ps_p P).
    { unfold XV, pso_moves. rewrite map3_length, !combine_length. lia. }
    assert (HF : Forall (fun xv => CX (fst xv) /\ CV (snd xv)) XV).
    { unfold XV, pso_moves. apply Forall_map3. intros [x v] pb [a b] H1 H2 H3. cbn [fst snd].
      rewrite Forall_forall in HFX, HFV, HFP, Hr1', Hr2'.
      apply Hmut.
      - apply HFX; eapply in_combine_l; exact H1.
      - apply HFV; eapply in_combine_r; exact H1.
      - apply HFP; exact H2.
      - exact HCg.
      - apply Hr1'; eapply in_combine_l; exact H3.
      - apply Hr2'; eapply in_combine_r; exact H3. }
    rewrite !map_length. repeat split; auto.
    - apply Forall_map. eapply Forall_impl; [|exact HF]. cbn; tauto.
    - apply Forall_map. eapply Forall_impl; [|exact HF]. cbn; tauto.
  Qed.

  Lemma pso_sync_spec it (r1 r2 : matrix) s st :
    sync = true -> pso_shape s ->
    length r1 = ps_p P -> Forall (fun r : vec => length r = ps_d P) r1 ->
    length r2 = ps_p P -> Forall (fun r : vec => length r = ps_d P) r2 ->
    wp (pso_sync P it r1 r2 s) (pso_body_post it s st) NF st.
  Proof.
    intros Hs Hsh Hr1 Hr1' Hr2 Hr2'. unfold pso_sync.
    apply wp_bind, wp_raise_if; [discriminate|]. intros _.
    destruct (pso_moves_spec r1 r2 s Hsh Hr1 Hr1' Hr2 Hr2') as (HlX & HlV & HFX & HFV).
    set (XV := pso_moves P r1 r2 s) in *.
    destruct Hsh as (HX & HV & Hpb & Hpf & Hpf' & HFX0 & HFV0 & HFP & HCg).
    cbn zeta. apply wp_bind.
    eapply (wp_selection_sync _ _ _ _ _ _ _ _ _ (ps_p P) (ps_mode P) (fun x => x) (Forall CX)); auto.
    - apply wp_eval_pop_rule; auto.
    - intros X' f s2 evs Hf HX' HC' Ht2 Hc2 Hs2 Hb2 Hev. apply wp_ret.
      exists evs, f. rewrite Ht2. cbn [fst snd pss_pfit pss_rec pss_X].
      split; [reflexivity|]. split.
      { constructor; auto.
        - rewrite Hs. exact Hs2.
        - intros Hm. destruct (Hev Hm) as (_ & l & Hl); exists l; exact Hl.
        - rewrite Hs. reflexivity. }
      split; [reflexivity|].
      assert (Hsx : length (sel_x X' f (pss_pbest s) (pss_pbestfit s)) = ps_p P)
        by (apply sel_x_length; auto).
      assert (Hsf : length (sel_fun f (pss_pbestfit s)) = ps_p P)
        by (apply sel_fun_length; auto).
      assert (HFs : Forall CP (sel_x X' f (pss_pbest s) (pss_pbestfit s))).
      { apply sel_x_Forall; auto. eapply Forall_impl; [|exact HC']; auto. }
      split; [|split; [reflexivity|split; [congruence|auto]]].
      repeat split; cbn; auto.
      rewrite Forall_nth' in HFs. apply HFs.
      rewrite Hsx. rewrite <- Hsf. apply argmin_lt.
      intros Hn; rewrite Hn in Hsf; cbn in Hsf; lia.
  Qed.

  Lemma pso_async_spec it (r1 r2 : matrix) s st :
    sync = false -> pso_shape s ->
    (ps_alias P = true -> argbuf st = Some (pss_X s)) ->
    length r1 = ps_p P -> Forall (fun r : vec => length r = ps_d P) r1 ->
    length r2 = ps_p P -> Forall (fun r : vec => length r = ps_d P) r2 ->
    wp (pso_async P it r1 r2 s) (pso_body_post it s st) NF st.
  Proof.
    intros Hs Hsh Harg Hr1 Hr1' Hr2 Hr2'. unfold pso_async. apply wp_bind.
    eapply wp_conseq;
      [apply (wp_foldM (pso_async_one P r1 r2) (seq 0 (ps_p P))
        (fun done acc st' => exists cand cf,
           length cand = length done /\ length cf = length done /\
           tr st' = tr st ++ map ok (combine cand cf) /\
           asyncs (ps_xtol P) (ps_ftol P) 0 (combine cand cf) (pss_q s) None
             = (pss_q (fst acc), snd acc) /\
           firstn (length done) (pss_X (fst acc)) = cand /\
           firstn (length done) (pss_pfit (fst acc)) = cf /\
           pso_shape (fst acc) /\ pss_rec (fst acc) = pss_rec s /\
           pso_arg (fst acc) (argbuf st) (argbuf st')) NF [] (s, None) st)| |auto].
    - exists [], []. cbn. rewrite app_nil_r. repeat split; auto; try apply Hsh.
      unfold pso_arg. destruct (ps_alias P); auto.
    - intros pre i post [a ast] s1 Hseq (cand & cf & Hc & Hf & Ht & Has & HXc & Hpf & Hsh1 & Hrec & Hb).
      destruct (seq_split_at _ _ _ _ Hseq) as [-> Hi].
      cbn [fst snd app] in *. unfold pso_async_one. cbn [fst].
      destruct Hsh1 as (HX & HV & Hpb & Hpbf & Hpf' & HFX & HFV & HFP & HCg).
      set (xv := pso_mutation P _ _ _ _ _ _).
      assert (Hxv : CX (fst xv) /\ CV (snd xv)).
      { apply Hmut; auto.
        - rewrite Forall_nth' in HFX; apply HFX; rewrite HX; exact Hi.
        - rewrite Forall_nth' in HFV; apply HFV; rewrite HV; exact Hi.
        - rewrite Forall_nth' in HFP; apply HFP; rewrite Hpb; exact Hi.
        - rewrite Forall_nth' in Hr1'; apply Hr1'; rewrite Hr1; exact Hi.
        - rewrite Forall_nth' in Hr2'; apply Hr2'; rewrite Hr2; exact Hi. }
      destruct Hxv as [Hx Hv].
      apply wp_bind, pso_set_alias_rule. intros s2 Ht2 Hb2.
      apply wp_bind, wp_selection_async.
      intros y s3 Ht3 Hb3. apply wp_ret.
      exists (cand ++ [fst xv]), (cf ++ [y]). rewrite !app_length. cbn [length fst snd].
      rewrite combine_snoc by lia.
      split; [lia|]. split; [lia|]. split.
      { rewrite Ht3, Ht2, Ht, map_app, <- app_assoc. reflexivity. }
      split.
      { rewrite asyncs_app, Has. rewrite combine_length, Hc, Hf, Nat.min_id. reflexivity. }
      split.
      { cbn [pss_X]. rewrite Nat.add_1_r, firstn_upd by (rewrite HX; exact Hi).
        rewrite HXc. reflexivity. }
      split.
      { cbn [pss_pfit]. rewrite Nat.add_1_r, firstn_upd by (rewrite Hpf'; exact Hi). rewrite Hpf.
        f_equal. f_equal. unfold async_sel.
        destruct (nleb y _); [destruct (nleb y _)|]; reflexivity. }
      split; [|split; [exact Hrec|]].
      + unfold pso_shape. cbn [pss_X pss_V pss_pbest pss_pbestfit pss_pfit pss_gbest].
        rewrite !upd_length. unfold async_sel.
        destruct (nleb y _); [destruct (nleb y _)|]; cbn; rewrite ?upd_length; repeat split; auto;
          apply Forall_upd; auto.
      + unfold pso_arg in *. cbn [pss_X]. rewrite Hb3, Hb2. destruct (ps_alias P); congruence.
    - intros [a ast] s1 (cand & cf & Hc & Hf & Ht & Has & HXc & Hpf & Hsh1 & Hrec & Hb).
      cbn [fst snd app] in *. rewrite seq_length in *. apply wp_ret.
      exists (map ok (combine cand cf)), cf. cbn [fst snd].
      assert (HX : pss_X a = cand).
      { rewrite <- HXc. symmetry. apply firstn_all2. destruct Hsh1 as (-> & _). lia. }
      split; [exact Ht|]. split.
      { rewrite HX. constructor; auto.
        - apply cbs_ok.
        - rewrite Hs. apply Shares_ok. discriminate.
        - intros _. exists (combine cand cf). rewrite map_id. auto.
        - rewrite Hs. cbn [gen_next]. rewrite Has. reflexivity. }
      split.
      { rewrite <- Hpf. symmetry. apply firstn_all2. destruct Hsh1 as (_ & _ & _ & _ & -> & _). lia. }
      split; [exact Hsh1|]. split; [exact Hrec|]. split; [intros _; exact Hb|congruence].
  Qed.

  Definition pso_step_post (it : Z) (s : PSOS) (st : St) (r : PSOS * option Z) (st' : St) : Prop :=
    exists evs cf,
      tr st' = tr st ++ evs /\
      GenStep (fun x => x) (ps_mode P) sync it (ps_maxiter P) (ps_xtol P) (ps_ftol P) (ps_p P)
              (pss_q s) (pss_q (fst r)) (snd r) evs (pss_X (fst r)) cf /\
      pss_pfit (fst r) = cf /\ pso_shape (fst r) /\
      RecW (ps_nout P) (ps_maxiter P) it (pss_X (fst r)) cf (best_row (pss_X (fst r)) cf)
           (pss_rec s) (pss_rec (fst r)) /\
      (sync = false -> pso_arg (fst r) (argbuf st) (argbuf st')) /\
      (sync = true -> argbuf st' = argbuf st).

  Lemma pso_step_spec it s st :
    pso_shape s -> (sync = false -> ps_alias P = true -> argbuf st = Some (pss_X s)) ->
    wp (pso_step P sync it s) (pso_step_post it s st) NF st.
  Proof.
    intros Hsh Harg. unfold pso_step.
    eapply wp_quiet_NF; [apply quiet_rand_mat|]. intros r1 s1 Ht1 Hb1 [Hr1 Hr1'].
    eapply wp_quiet_NF; [apply quiet_rand_mat|]. intros r2 s2 Ht2 Hb2 [Hr2 Hr2'].
    apply wp_bind.
    assert (Hbody : wp (if sync then pso_sync P it r1 r2 s else pso_async P it r1 r2 s)
                       (pso_body_post it s s2) NF s2).
    { destruct sync eqn:Hs; [apply pso_sync_spec|apply pso_async_spec]; auto.
      rewrite Hb2, Hb1; auto. }
    eapply wp_post; [exact Hbody|]. intros [s' c] s3 (evs & cf & Ht & HG & Hpf & Hsh' & Hrec & Hb & Hb').
    cbn [fst snd] in *. apply wp_bind, wp_rec_write. intros r' HR. apply wp_ret.
    exists evs, cf. cbn [fst snd pss_X pss_pfit pss_rec].
    split; [congruence|]. split; [exact HG|]. split; [exact Hpf|].
    split; [exact Hsh'|]. split; [rewrite <- Hpf, <- Hrec; exact HR|].
    unfold pso_arg in *; cbn [pss_X]. rewrite Hb2, Hb1 in *. auto.
  Qed.

  Lemma upd_many_length {A} idx : forall (rows l : list A), length (upd_many idx rows l) = length l.
  Proof.
    induction idx as [|i idx IH]; intros [|r rows] l; cbn; auto. rewrite IH, upd_length; auto.
  Qed.
  Lemma Forall_upd_many {A} (Q : A -> Prop) idx : forall (rows l : list A),
    Forall Q rows -> Forall Q l -> Forall Q (upd_many idx rows l).
  Proof.
    induction idx as [|i idx IH]; intros [|r rows] l Hr Hl; cbn; auto.
    inversion Hr; subst. apply IH; auto. apply Forall_upd; auto.
  Qed.

  (** The restart: which particles, and what they become. *)
  Definition Restarted (idx : list nat) (rows : matrix) (s s' : PSOS) : Prop :=
    pss_X s' = upd_many idx rows (pss_X s) /\
    pss_V s' = upd_many idx (repeat (repeat n0 (ps_d P)) (length rows)) (pss_V s) /\
    pss_pbest s' = upd_many idx (map (fun i => nth i (pss_X s') []) idx) (pss_pbest s) /\
    pss_pbestfit s' = upd_many idx (repeat (nlit 1 30) (length rows)) (pss_pbestfit s) /\
    pss_gbest s' = pss_gbest s /\ pss_gfit s' = pss_gfit s /\ pss_pfit s' = pss_pfit s /\
    pss_rec s' = pss_rec s.

  Definition pso_post_post (it : Z) (s : PSOS) (st : St) (s' : PSOS) (st' : St) : Prop :=
    tr st' = tr st /\
    (s' = s /\ argbuf st' = argbuf st \/
     exists g nw rows, ps_gamma P = Some g /\
       nltb (swarm_radius (ps_d P) (pss_X s) (pss_gbest s)) (ps_delta P) = true /\
       restart_count (ps_p P) it (ps_maxiter P) g = Some nw /\ (0 < nw)%Z /\
       length rows = Z.to_nat nw /\ Forall CX rows /\
       Restarted (worst (pss_pbestfit s) (Z.to_nat nw)) rows s s' /\
       pso_arg s' (argbuf st) (argbuf st')).

  Lemma pso_post_spec it s st :
    wp (pso_post P it s) (pso_post_post it s st) NF st.
  Proof.
    unfold pso_post. destruct (ps_gamma P) as [g|] eqn:Hg.
    2: { apply wp_ret. split; auto. }
    unfold restart.
    destruct (nltb (swarm_radius (ps_d P) (pss_X s) (pss_gbest s)) (ps_delta P)) eqn:Hsw.
    2: { apply wp_ret. split; auto. }
    apply wp_bind, wp_raise_if; [discriminate|]. intros _.
    destruct (restart_count (ps_p P) it (ps_maxiter P) g) as [nw|] eqn:Hnw; cbn [orelse].
    2: { apply wp_bind, wp_raise; discriminate. }
    apply wp_bind, wp_ret.
    destruct (0 <? nw)%Z eqn:Hn.
    2: { apply wp_ret. split; auto. }
    unfold uniform_mat. apply wp_bind, wp_bind.
    eapply wp_conseq; [apply quiet_urange| |]; [|intros e s0 (_ & _ & H & H'); cbn; auto].
    intros _ s0 (Ht0 & Hb0 & _).
    eapply wp_conseq; [apply (quiet_replicateM _ _ _ Huni)| |]; [|intros e s1 (_ & _ & H & H'); cbn; auto].
    intros rows s1 (Ht1 & Hb1 & Hrows & HFr).
    apply wp_bind, pso_set_alias_rule. intros s2 Ht2 Hb2. apply wp_ret.
    split; [rewrite Ht2, Ht1; exact Ht0|]. right. exists g, nw, rows.
    split; [exact Hg|]. split; [exact Hsw|]. split; [exact Hnw|].
    split; [apply Z.ltb_lt; exact Hn|]. split; [exact Hrows|]. split; [exact HFr|].
    split.
    - unfold Restarted; cbn. rewrite Hrows. repeat split.
    - unfold pso_arg; cbn [pss_X]. rewrite Hb2, Hb1, Hb0. destruct (ps_alias P); reflexivity.
  Qed.
End PSOStep.

Section NAStep.
  Context {N : Num} {E : Env N}.
  Variables (P : NAParams) (C : vec -> Prop).
  Hypothesis Hp : 0 < na_p P.
  Hypothesis Hmode : ModeOK (na_mode P).
  Hypothesis Hmut : forall Xall Xallfit,
    length Xallfit = length Xall -> Xall <> [] -> Forall C Xall ->
    quiet (na_mutation P Xall Xallfit) (fun X => length X = na_p P /\ Forall C X).

  Definition nas_q (s : NAS) : Q4 :=
    mkQ4 (nas_pbest s) (nas_pbestfit s) (nas_gbest s) (nas_gfit s).

  Definition na_shape (s : NAS) : Prop :=
    length (nas_X s) = na_p P /\ length (nas_pbest s) = na_p P /\
    length (nas_pbestfit s) = na_p P /\ length (nas_pfit s) = na_p P /\
    length (nas_Xallfit s) = length (nas_Xall s) /\ nas_Xall s <> [] /\
    Forall C (nas_X s) /\ Forall C (nas_pbest s) /\ C (nas_gbest s) /\ Forall C (nas_Xall s).

  Let un := unnormalize (na_lower P) (na_upper P).

  Definition na_step_post (it : Z) (s : NAS) (st : St) (r : NAS * option Z) (st' : St) : Prop :=
    exists evs cf,
      tr st' = tr st ++ evs /\
      GenStep un (na_mode P) true it (na_maxiter P) (na_xtol P) (na_ftol P) (na_p P)
              (nas_q s) (nas_q (fst r)) (snd r) evs (nas_X (fst r)) cf /\
      nas_pfit (fst r) = cf /\ na_shape (fst r) /\
      nas_Xall (fst r) = nas_X (fst r) ++ nas_Xall s /\
      nas_Xallfit (fst r) = cf ++ nas_Xallfit s /\
      RecW (na_nout P) (na_maxiter P) it (map un (nas_X (fst r))) cf
           (un (fst (best_row (nas_X (fst r)) cf)), snd (best_row (nas_X (fst r)) cf))
           (nas_rec s) (nas_rec (fst r)) /\
      argbuf st' = argbuf st.

  Lemma na_eval_rule X s p :
    length X = p -> Forall C X ->
    forall (R : matrix * vec -> St -> Prop),
        (forall X' f s' evs,
            length f = p -> length X' = p -> Forall C X' ->
            tr s' = tr s ++ evs -> cbs evs = [] -> Shares (na_mode P) p f evs -> argbuf s' = argbuf s ->
            (na_mode P <> Mpi -> X' = X /\ exists l, evs = map ok l /\
                 Permutation l (combine (map un X') f) /\
                 (na_mode P = Serial -> l = combine (map un X') f)) ->
            X' = X -> R (X', f) s') ->
        wp (na_eval P X) R NF s.
  Proof.
    intros Hl HC R H. unfold na_eval. apply wp_bind.
    apply wp_eval_pop; [exact Hmode| |discriminate].
    intros X' f s' evs H1 H2 H3 H4 H5 H6 H7 H8. apply wp_ret.
    rewrite map_length in H1, H5.
    assert (H5' : Shares (na_mode P) p f evs) by (rewrite <- Hl; exact H5).
    apply (H X f s' evs); auto.
    - rewrite <- Hl; exact H1.
    - intros Hm. destruct (H7 Hm) as [_ Hx]. split; [reflexivity|exact Hx].
  Qed.

  Lemma na_step_spec it s st :
    na_shape s -> wp (na_step P it s) (na_step_post it s st) NF st.
  Proof.
    intros (HX & Hpb & Hpbf & Hpf & Hall & Hne & HFX & HFP & HCg & HFall). unfold na_step.
    eapply wp_quiet_NF; [apply Hmut; auto|]. intros X s1 Ht1 Hb1 [HlX HCX].
    apply wp_bind.
    eapply (wp_selection_sync _ _ _ _ _ _ _ _ _ (na_p P) (na_mode P) un (fun X' => X' = X)); auto.
    - intros R HR. apply (na_eval_rule X s1 (na_p P)); auto. 
      intros X' f s' evs H1 H2 H3 H4 H5 H6 H7 H8 H9. apply (HR X' f s' evs); auto.
    - intros X' f s2 evs Hf HX' -> Ht2 Hc2 Hs2 Hb2 Hev.
      apply wp_bind, wp_rec_write. intros r' HR. apply wp_ret.
      exists evs, f. cbn [fst snd nas_X nas_pfit nas_rec nas_Xall nas_Xallfit].
      split; [congruence|]. split.
      { constructor; auto. intros Hm. destruct (Hev Hm) as (_ & l & Hl); exists l; exact Hl. }
      split; [reflexivity|].
      assert (Hsx : length (sel_x X f (nas_pbest s) (nas_pbestfit s)) = na_p P)
        by (apply sel_x_length; auto).
      assert (Hsf : length (sel_fun f (nas_pbestfit s)) = na_p P)
        by (apply sel_fun_length; auto).
      assert (HFs : Forall C (sel_x X f (nas_pbest s) (nas_pbestfit s)))
        by (apply sel_x_Forall; auto).
      split; [|split; [reflexivity|split; [reflexivity|split; [exact HR|congruence]]]].
      unfold na_shape. cbn. rewrite !app_length.
      repeat split; auto.
      + rewrite Hf, HlX, Hall; reflexivity.
      + destruct X; [cbn in HlX; lia|discriminate].
      + rewrite Forall_nth' in HFs. apply HFs.
        rewrite Hsx. rewrite <- Hsf. apply argmin_lt.
        intros Hn; rewrite Hn in Hsf; cbn in Hsf; lia.
      + apply Forall_app; auto.
  Qed.
End NAStep.
