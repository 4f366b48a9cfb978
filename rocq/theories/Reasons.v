(** C70: cmaes and vdcma stop in the first generation that gives a reason to stop, and the status is
    the first reason in the stated order. *)
From Coq Require Import Floats.
From Verif Require Import Base Num Env Common DE CPSO NA Mat CMAES VDCMA Hoare EvalRules
  Gen Steps Hist Runs CmaRun Best Inst HistFacts HistBest PropPop Laws Valid Trial Restart Flight Adapt VAdapt PropCma.
Open Scope nat_scope.
Local Open Scope num_scope.

Section Reasons.
  Context {N : Num} {E : Env N}.
  Local Notation "v @ i" := (nth i v n0) (at level 2, i at level 1).

  (** Generation by generation: [D n] is the distribution after [n] generations, [F n] the values of
      the generation that follows, [h] the best values, [c] the status at the end; the generations
      before the last one give no reason to stop. *)
  Definition Course {X} (V : nat -> X -> X -> list T -> list T -> option Z -> Prop)
      (D : nat -> X) (F : nat -> list T) (h : list T) (n : nat) (c : option Z) : Prop :=
    length h = n /\
    forall i, (i < n)%nat -> V (Datatypes.S i) (D i) (D (Datatypes.S i)) (F i) (firstn (Datatypes.S i) h)
                                (if Nat.eqb (Datatypes.S i) n then c else None).

  Lemma Course_nil {X} V (D : nat -> X) F : Course V D F [] 0 None.
  Proof. split; [reflexivity|]. intros i Hi. lia. Qed.

  Lemma Course_snoc {X} V (D : nat -> X) F h n S' f v c : Course V D F h n None ->
    V (Datatypes.S n) (D n) S' f (h ++ [v]) c ->
    Course V (fun k => if Nat.eqb k (Datatypes.S n) then S' else D k) (fun k => if Nat.eqb k n then f else F k)
      (h ++ [v]) (Datatypes.S n) c.
  Proof.
    intros [Hl H] HV. split; [rewrite app_length, Hl; cbn; lia|]. intros i Hi. cbn beta.
    destruct (Nat.eq_dec i n) as [->|Hn].
    - rewrite !Nat.eqb_refl. replace (n =? Datatypes.S n)%nat with false by (symmetry; apply Nat.eqb_neq; lia).
      rewrite firstn_all2 by (rewrite app_length, Hl; cbn; lia). exact HV.
    - replace (i =? Datatypes.S n)%nat with false by (symmetry; apply Nat.eqb_neq; lia).
      replace (Datatypes.S i =? Datatypes.S n)%nat with false by (symmetry; apply Nat.eqb_neq; lia).
      replace (i =? n)%nat with false by (symmetry; apply Nat.eqb_neq; lia).
      rewrite firstn_app. replace (Datatypes.S i - length h)%nat with 0%nat by lia. cbn [firstn]. rewrite app_nil_r.
      specialize (H i ltac:(lia)). destruct (Datatypes.S i =? n)%nat; exact H.
  Qed.

  (** One generation: the values are ranked, the best of them is the last entry of [h], the
      distribution is adapted, and the verdict is the one stated for it. *)
  Definition CmaGen (A : CMAArgs) (d mu p : nat) (n : nat) (S S' : Dist) (f h : list T) (c : option Z) : Prop :=
    (exists X K, length f = p /\ Ranking f K /\ last h n0 = f@(nth 0 K 0%nat) /\
                 Adapted d mu p (Z.of_nat (n * p)) X K S S') /\
    Verdict A d n (mean S) (mean S') (size S') (path_c S') (fun j => (nth j (cov S') [])@j)
            (Some (axes S', scales S')) f h c.
  Definition VdGen (A : CMAArgs) (d mu p : nat) (n : nat) (S S' : VDist) (f h : list T) (c : option Z) : Prop :=
    (exists Y X K, length f = p /\ Ranking f K /\ last h n0 = f@(nth 0 K 0%nat) /\ VAdapted d mu p Y X K S S') /\
    Verdict A d n (v_mean S) (v_mean S') (v_size S') (v_path S') (Var d S) None f h c.

  Lemma Fitness_len A d mu p n m sz var X raw f B B' :
    Fitness A d mu p n m sz var X raw f B B' -> length raw = p -> length f = p.
  Proof. unfold Fitness. destruct (a_constraints (caa A)); [intros (_ & -> & _); auto|intros ->; auto]. Qed.

  Lemma Adapt_Course A rows mu p serial n S B b l h c : Adapt A rows mu p serial n S B b l h c ->
    exists D F, Course (CmaGen A (length rows) mu p) D F h n c /\ D n = S /\ Start A rows (D 0%nat) /\
      (forall x v, b = Some (x, v) -> v = last h n0).
  Proof.
    induction 1 as [S B HS HB|n S B b l h X Y raw f K l' S' B' c HA IH H1 H2 H3 H4 H5 H6 H7 H8 H9 H10].
    - exists (fun _ => S), (fun _ => []). split; [apply Course_nil|]. split; [reflexivity|]. split; [exact HS|]. discriminate.
    - destruct IH as (D & F & HC & HD & H0 & _).
      exists (fun k => if Nat.eqb k (Datatypes.S n) then S' else D k), (fun k => if Nat.eqb k n then f else F k).
      split; [|split; [rewrite Nat.eqb_refl; reflexivity|split; [exact H0|]]].
      + apply Course_snoc; [exact HC|]. rewrite HD. split; [|exact H10].
        exists X, K. rewrite last_last. split; [eapply Fitness_len; eauto|]. auto.
      + intros x v Hv. injection Hv as _ <-. rewrite last_last. reflexivity.
  Qed.

  Lemma VAdapt_Course A rows mu p serial n S B b l h c : VAdapt A rows mu p serial n S B b l h c ->
    exists D F, Course (VdGen A (length rows) mu p) D F h n c /\ D n = S /\ VStart A rows (D 0%nat) /\
      (forall x v, b = Some (x, v) -> v = last h n0).
  Proof.
    induction 1 as [S B HS HB|n S B b l h Y X Z0 raw f K l' S' B' c HA IH H1 H2 H3 H4 H5 H6 H7 H8 H9 H10].
    - exists (fun _ => S), (fun _ => []). split; [apply Course_nil|]. split; [reflexivity|]. split; [exact HS|]. discriminate.
    - destruct IH as (D & F & HC & HD & H0 & _).
      exists (fun k => if Nat.eqb k (Datatypes.S n) then S' else D k), (fun k => if Nat.eqb k n then f else F k).
      split; [|split; [rewrite Nat.eqb_refl; reflexivity|split; [exact H0|]]].
      + apply Course_snoc; [exact HC|]. rewrite HD. split; [|exact H10].
        exists Y, X, K. rewrite last_last. split; [eapply Fitness_len; eauto|]. auto.
      + intros x v Hv. injection Hv as _ <-. rewrite last_last. reflexivity.
  Qed.

  Section Runs.
    Hypothesis HE : EnvOK.
    Hypothesis HEig : EighShape.
    Hypothesis HEmp : EmptyShape.

    (** A run of cmaes that returns: no generation before the last gives a reason to stop, and the
        status is the first reason that the last generation gives. *)
    Theorem C70_cmaes A rows k w a0 res st' :
      a_bounds (caa A) = D2 2 rows ->
      a_backend (caa A) <> Some "mpi"%string ->
      ntrunc (caa_muperc A * nZ (a_popsize (caa A))) = Some k -> (k <= a_popsize (caa A))%Z ->
      exec (cmaes_minimize A) w a0 = (inl res, st') ->
      exists D F h,
        Start A rows (D 0%nat) /\
        Course (CmaGen A (length rows) (Z.to_nat k) (Z.to_nat (a_popsize (caa A)))) D F h
               (Z.to_nat (r_nit res)) (Some (r_status res)) /\
        r_fun res = last h n0.
    Proof.
      intros Hb Hm Hk Hkp Hx.
      destruct (C58_adaptation HE HEig HEmp A rows k w a0 res st' Hb Hm Hk Hkp Hx) as (S & B & h & HA).
      destruct (Adapt_Course _ _ _ _ _ _ _ _ _ _ _ _ HA) as (D & F & HC & _ & H0 & Hl).
      exists D, F, h. split; [exact H0|]. split; [exact HC|]. apply (Hl _ _ eq_refl).
    Qed.

    (** The same for vdcma. *)
    Theorem C70_vdcma A rows k w a0 res st' :
      a_bounds (caa A) = D2 2 rows ->
      a_backend (caa A) <> Some "mpi"%string ->
      ntrunc (caa_muperc A * nZ (a_popsize (caa A))) = Some k -> (k <= a_popsize (caa A))%Z ->
      exec (vdcma_minimize A) w a0 = (inl res, st') ->
      exists D F h,
        VStart A rows (D 0%nat) /\
        Course (VdGen A (length rows) (Z.to_nat k) (Z.to_nat (a_popsize (caa A)))) D F h
               (Z.to_nat (r_nit res)) (Some (r_status res)) /\
        r_fun res = last h n0.
    Proof.
      intros Hb Hm Hk Hkp Hx.
      destruct (C59_adaptation HE HEmp A rows k w a0 res st' Hb Hm Hk Hkp Hx) as (S & B & h & HA).
      destruct (VAdapt_Course _ _ _ _ _ _ _ _ _ _ _ _ HA) as (D & F & HC & _ & H0 & Hl).
      exists D, F, h. split; [exact H0|]. split; [exact HC|]. apply (Hl _ _ eq_refl).
    Qed.
  End Runs.

  (** What the rule says about single statuses. *)
  Lemma FirstOf_In l c : FirstOf l = Some c -> In (c, true) l.
  Proof.
    unfold FirstOf. induction l as [|[k b] l IH]; cbn; [discriminate|]. destruct b; cbn; [intros H; injection H as <-; auto|auto].
  Qed.
  Lemma FirstOf_None l : FirstOf l = None -> forall c b, In (c, b) l -> b = false.
  Proof.
    unfold FirstOf. induction l as [|[k b] l IH]; cbn; [intros _ c b []|]. destruct b; cbn; [discriminate|].
    intros H c b' [H'|H']; [congruence|]. apply (IH H c b' H').
  Qed.
  Lemma FirstOf_cons k b l : FirstOf ((k, b) :: l) = if b then Some k else FirstOf l.
  Proof. unfold FirstOf. cbn. destruct b; reflexivity. Qed.
  (** No generation before the last one reaches [maxiter] or [ftol], or has a step size that is too large. *)
  Lemma Verdict_None A d n m m' sz pc var BD f h : Verdict A d n m m' sz pc var BD f h None ->
    (Z.of_nat n < a_maxiter (caa A))%Z /\ last h n0 <=? a_ftol (caa A) = false /\
    (forall j, (j < d)%nat -> nlit 1 3 * caa_sigma A <? sz * nsqrt (var j) = false) /\
    (forall j, (j < d)%nat -> nlit 2 (-1) * sz * nsqrt (var j) <? nlit 1 (-10) = false).
  Proof.
    intros (w & hi & lo & hi' & lo' & top & _ & _ & _ & _ & _ & _ & na & co & _ & Hc).
    symmetry in Hc. pose proof (FirstOf_None _ Hc) as H.
    assert (Hs : forall g, Some_of d g = false -> forall j, (j < d)%nat -> g j = false).
    { intros g Hg j Hj. unfold Some_of in Hg. destruct (g j) eqn:Hgj; [|reflexivity].
      assert (existsb g (seq 0 d) = true) by (apply existsb_exists; exists j; split; [apply in_seq; lia|exact Hgj]). congruence. }
    split; [|split; [|split]].
    - apply Z.leb_gt. eapply H. left. reflexivity.
    - eapply H. do 2 right. left. reflexivity.
    - apply Hs. eapply H. do 7 right. left. reflexivity.
    - apply Hs. eapply H. do 4 right. left. reflexivity.
  Qed.
  (** vdcma never reports -2 or -4. *)
  Lemma Verdict_vd A d n m m' sz pc var f h c : Verdict A d n m m' sz pc var None f h (Some c) ->
    In c [-1; 0; 1; -3; -5; -6; -7; -8]%Z.
  Proof.
    intros (w & hi & lo & hi' & lo' & top & _ & _ & _ & _ & _ & _ & na & co & [Hn Hco] & Hc).
    symmetry in Hc. apply FirstOf_In in Hc. subst na co. cbn [In] in Hc |- *.
    repeat (destruct Hc as [Hc|Hc]; [injection Hc as <- Hc; try discriminate Hc; tauto|]). destruct Hc.
  Qed.

  (** In terms of the result and the best values of the generations alone. *)
  Lemma Course_best {X} (V : nat -> X -> X -> list T -> list T -> option Z -> Prop) A D F h n c :
    (forall n S S' f h c, V n S S' f h c ->
       exists m m' sz pc var BD d, Verdict A d n m m' sz pc var BD f h c) ->
    Course V D F h n (Some c) -> (0 < n)%nat -> (Z.of_nat n <= a_maxiter (caa A))%Z ->
    length h = n /\
    (forall i, (Datatypes.S i < n)%nat -> h@i <=? a_ftol (caa A) = false) /\
    (c = (-1)%Z <-> (Z.of_nat n = a_maxiter (caa A))%Z) /\
    ((Z.of_nat n < a_maxiter (caa A))%Z -> last h n0 <=? a_ftol (caa A) = true -> c = 0%Z \/ c = 1%Z) /\
    (c = 1%Z -> last h n0 <=? a_ftol (caa A) = true) /\ (c = 0%Z -> last h n0 <? a_ftol (caa A) = true).
  Proof.
    intros HV [Hl HC] Hn Hm. split; [exact Hl|].
    assert (HN : forall i, (Datatypes.S i < n)%nat -> (Z.of_nat (Datatypes.S i) < a_maxiter (caa A))%Z /\ h@i <=? a_ftol (caa A) = false).
    { intros i Hi. specialize (HC i ltac:(lia)). replace (Datatypes.S i =? n)%nat with false in HC by (symmetry; apply Nat.eqb_neq; lia).
      apply HV in HC. destruct HC as (m & m' & sz & pc & var & BD & d & HC). apply Verdict_None in HC.
      destruct HC as (H1 & H2 & _). split; [exact H1|]. rewrite <- H2. f_equal.
      rewrite <- (firstn_skipn (Datatypes.S i) h) at 1. rewrite app_nth1 by (rewrite firstn_length; lia).
      rewrite <- (rev_involutive (firstn (Datatypes.S i) h)) at 2.
      assert (Hfl : length (firstn (Datatypes.S i) h) = Datatypes.S i) by (rewrite firstn_length; lia).
      destruct (exists_last (l := firstn (Datatypes.S i) h)) as (q & v & Hq); [intros H0; rewrite H0 in Hfl; discriminate|].
      rewrite Hq, rev_involutive, last_last. rewrite Hq, app_length in Hfl. cbn in Hfl.
      rewrite app_nth2 by lia. replace (i - length q)%nat with 0%nat by lia. reflexivity. }
    pose proof (HC (n - 1)%nat ltac:(lia)) as HL. replace (Datatypes.S (n - 1)) with n in HL by lia.
    rewrite Nat.eqb_refl, firstn_all2 in HL by lia. apply HV in HL. destruct HL as (m & m' & sz & pc & var & BD & d & HL).
    destruct HL as (w & hi & lo & hi' & lo' & top & _ & _ & _ & _ & _ & _ & na & co & _ & Hc).
    change (last h (nZ 0)) with (last h n0) in Hc.
    set (b0 := nsqrt _ <=? _) in Hc. clearbody b0.
    split; [intros i Hi; apply HN, Hi|].
    rewrite FirstOf_cons in Hc.
    destruct (Z.leb_spec (a_maxiter (caa A)) (Z.of_nat n)) as [Hmx|Hmx].
    { injection Hc as ->. split; [split; [lia|reflexivity]|]. split; [lia|]. split; discriminate. }
    assert (Hne : forall z, FirstOf z = Some c -> (forall e, In e z -> fst e <> (-1)%Z) -> c <> (-1)%Z).
    { intros z Hz HF ->. apply FirstOf_In in Hz. exact (HF _ Hz eq_refl). }
    assert (Hn1 : c <> (-1)%Z).
    { eapply Hne; [symmetry; exact Hc|]. intros e He. cbn [In] in He.
      repeat (destruct He as [<-|He]; [discriminate|]). destruct He. }
    split; [split; [intros; contradiction|lia]|].
    do 2 rewrite FirstOf_cons in Hc. destruct (last h n0 <=? a_ftol (caa A)) eqn:Hf.
    - split; [|split; [reflexivity|]].
      + intros _ _. destruct (b0 && _); injection Hc as ->; auto.
      + intros ->. destruct b0; [|discriminate]. cbn [andb] in Hc. destruct (last h n0 <? a_ftol (caa A)) eqn:Hf'; [reflexivity|discriminate].
    - split; [discriminate|].
      assert (Hrest : forall z, FirstOf z = Some c -> (forall e, In e z -> fst e <> 0%Z /\ fst e <> 1%Z) -> c <> 0%Z /\ c <> 1%Z).
      { intros z Hz HF. apply FirstOf_In in Hz. exact (HF _ Hz). }
      destruct (b0 && (last h n0 <? a_ftol (caa A))) eqn:Hb.
      + injection Hc as ->. split; [discriminate|]. intros _. apply andb_true_iff in Hb. apply Hb.
      + destruct (Hrest _ (eq_sym Hc)) as [H0 H1].
        { intros e He. cbn [In] in He. repeat (destruct He as [<-|He]; [split; discriminate|]). destruct He. }
        split; intros; contradiction.
  Qed.

  Theorem C70_target (HE : EnvOK) (HEig : EighShape) (HEmp : EmptyShape) c rows k w a0 res st' :
    let A := cma_cargs c in
    a_bounds (caa A) = D2 2 rows ->
    a_backend (caa A) <> Some "mpi"%string ->
    ntrunc (caa_muperc A * nZ (a_popsize (caa A))) = Some k -> (k <= a_popsize (caa A))%Z ->
    exec (cma_run c) w a0 = (inl res, st') ->
    exists h,
      length h = Z.to_nat (r_nit res) /\ r_fun res = last h n0 /\
      (forall i, (Datatypes.S i < length h)%nat -> h@i <=? a_ftol (caa A) = false) /\
      (r_status res = (-1)%Z <-> r_nit res = a_maxiter (caa A)) /\
      ((r_nit res < a_maxiter (caa A))%Z -> r_fun res <=? a_ftol (caa A) = true -> r_status res = 0%Z \/ r_status res = 1%Z) /\
      (r_status res = 1%Z -> r_fun res <=? a_ftol (caa A) = true) /\
      (r_status res = 0%Z -> r_fun res <? a_ftol (caa A) = true) /\
      In (r_status res) (match c with CallCMA _ => [-1; 0; 1; -2; -3; -4; -5; -6; -7; -8] | CallVD _ => [-1; 0; 1; -3; -5; -6; -7; -8] end)%Z.
  Proof.
    cbn zeta. intros Hb Hm Hk Hkp Hx. pose proof (C01_nit_cma _ _ _ _ _ HE Hx) as Hn. unfold cma_args in Hn.
    assert (Hn' : (0 < Z.to_nat (r_nit res))%nat) by lia.
    assert (Hm' : (Z.of_nat (Z.to_nat (r_nit res)) <= a_maxiter (caa (cma_cargs c)))%Z) by lia.
    destruct c as [A|A]; cbn [cma_run cma_cargs] in *.
    - destruct (C70_cmaes HE HEig HEmp A rows k w a0 res st' Hb Hm Hk Hkp Hx) as (D & F & h & _ & HC & Hf).
      assert (HV : forall n S S' f h c, CmaGen A (length rows) (Z.to_nat k) (Z.to_nat (a_popsize (caa A))) n S S' f h c ->
        exists m m' sz pc var BD d, Verdict A d n m m' sz pc var BD f h c).
      { intros n S S' f h' c [_ H]. do 7 eexists. exact H. }
      destruct (Course_best _ A D F h _ _ HV HC Hn' Hm') as (H1 & H2 & H3 & H4 & H5 & H6). rewrite <- Hf in *.
      exists h. split; [exact H1|]. split; [exact Hf|]. split; [intros i Hi; apply H2; rewrite <- H1; exact Hi|].
      split; [rewrite H3; lia|]. split; [intros Hlt; apply H4; lia|]. split; [exact H5|]. split; [exact H6|].
      destruct HC as [_ HC]. specialize (HC (Z.to_nat (r_nit res) - 1)%nat ltac:(lia)).
      replace (Datatypes.S (Z.to_nat (r_nit res) - 1)) with (Z.to_nat (r_nit res)) in HC by lia. rewrite Nat.eqb_refl in HC.
      destruct HC as [_ (? & ? & ? & ? & ? & ? & _ & _ & _ & _ & _ & _ & ? & ? & _ & Hc)].
      symmetry in Hc. apply FirstOf_In in Hc. cbn [In] in Hc |- *.
      repeat (destruct Hc as [Hc|Hc]; [injection Hc as <- _; tauto|]). destruct Hc.
    - destruct (C70_vdcma HE HEmp A rows k w a0 res st' Hb Hm Hk Hkp Hx) as (D & F & h & _ & HC & Hf).
      assert (HV : forall n S S' f h c, VdGen A (length rows) (Z.to_nat k) (Z.to_nat (a_popsize (caa A))) n S S' f h c ->
        exists m m' sz pc var BD d, Verdict A d n m m' sz pc var BD f h c).
      { intros n S S' f h' c [_ H]. do 7 eexists. exact H. }
      destruct (Course_best _ A D F h _ _ HV HC Hn' Hm') as (H1 & H2 & H3 & H4 & H5 & H6). rewrite <- Hf in *.
      exists h. split; [exact H1|]. split; [exact Hf|]. split; [intros i Hi; apply H2; rewrite <- H1; exact Hi|].
      split; [rewrite H3; lia|]. split; [intros Hlt; apply H4; lia|]. split; [exact H5|]. split; [exact H6|].
      destruct HC as [_ HC]. specialize (HC (Z.to_nat (r_nit res) - 1)%nat ltac:(lia)).
      replace (Datatypes.S (Z.to_nat (r_nit res) - 1)) with (Z.to_nat (r_nit res)) in HC by lia. rewrite Nat.eqb_refl in HC.
      destruct HC as [_ HC]. apply Verdict_vd in HC. exact HC.
  Qed.
End Reasons.
