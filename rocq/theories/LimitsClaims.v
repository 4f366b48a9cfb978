(** C63, C64: the claims.  What can change when a call is repeated with other values of maxiter,
    xtol and ftol. *)
From Verif Require Import Base Num Env Common DE CPSO NA Mat CMAES VDCMA Hoare Rel Laws Disc Limits.

Section Claims.
  Context {N : Num} {E : Env N}.

  (** ** The claims in words of the trace and the result *)

  (** Both calls go the same way until one of them stops. *)
  Definition SameUntilStop (m m' : M OptRes) : Prop :=
    forall w a0,
      let (r, st) := exec m w a0 in
      let (r', st') := exec m' w a0 in
      (* one list of user calls is the beginning of the other *)
      (exists rest, tr st' = tr st ++ rest \/ tr st = tr st' ++ rest) /\
      (* stopping in the same iteration: only the status may differ *)
      (forall a a', r = inl a -> r' = inl a' -> r_nit a' = r_nit a ->
         st' = st /\ r_x a' = r_x a /\ r_fun a' = r_fun a /\ r_nfev a' = r_nfev a /\
         r_all a' = r_all a) /\
      (* stopping earlier: the shorter record is the beginning of the longer one *)
      (forall a a', r = inl a -> r' = inl a' -> (r_nit a < r_nit a')%Z ->
         (exists rest, tr st' = tr st ++ rest) /\ grows (r_all a) (r_all a')) /\
      (forall a a', r = inl a -> r' = inl a' -> (r_nit a' < r_nit a)%Z ->
         (exists rest, tr st = tr st' ++ rest) /\ grows (r_all a') (r_all a)) /\
      (* an exception of one of them is met by the other unless it stopped before *)
      (forall e, r = inr e ->
         (r' = inr e /\ st' = st) \/ (exists a' rest, r' = inl a' /\ tr st = tr st' ++ rest)) /\
      (forall e, r' = inr e ->
         (r = inr e /\ st' = st) \/ (exists a rest, r = inl a /\ tr st' = tr st ++ rest)).

  (** The second call does what the first one does, and goes on where the first one stopped with a
      status of [S]. *)
  Definition Extends (S : Z -> Prop) (m m' : M OptRes) : Prop :=
    forall w a0,
      let (r, st) := exec m w a0 in
      let (r', st') := exec m' w a0 in
      match r with
      | inr e => r' = inr e /\ st' = st
      | inl a =>
          (r' = inl a /\ st' = st) \/
          (S (r_status a) /\ (exists rest, tr st' = tr st ++ rest) /\
           forall a', r' = inl a' ->
             (r_nit a <= r_nit a')%Z /\ grows (r_all a) (r_all a') /\
             (r_nit a' = r_nit a -> st' = st /\ r_x a' = r_x a /\ r_fun a' = r_fun a /\
                                    r_nfev a' = r_nfev a /\ r_all a' = r_all a))
      end.

  (** The two calls differ in nothing but the label 0 or 1 of a run that met ftol. *)
  Definition SameButLabel (m m' : M OptRes) : Prop :=
    forall w a0,
      let (r, st) := exec m w a0 in
      let (r', st') := exec m' w a0 in
      st' = st /\
      match r, r' with
      | inr e, inr e' => e' = e
      | inl a, inl a' =>
          a' = a \/
          ((r_status a = 0 \/ r_status a = 1)%Z /\ (r_status a' = 0 \/ r_status a' = 1)%Z /\
           r_x a' = r_x a /\ r_fun a' = r_fun a /\ r_nfev a' = r_nfev a /\ r_nit a' = r_nit a /\
           r_all a' = r_all a)
      | _, _ => False
      end.

  Lemma track_SameUntilStop m m' : track (fun _ _ => True) m m' -> SameUntilStop m m'.
  Proof.
    intros H w a0. unfold exec. specialize (H (mkSt w [] a0)).
    destruct (m _) as [r st], (m' _) as [r' st']. cbn [fst snd] in H.
    destruct H as [[<- H] | [(a & rest & -> & _ & H1 & H2) | (b & rest & -> & _ & H1 & H2)]].
    - split; [exists []; left; rewrite app_nil_r; reflexivity|].
      destruct r as [a|e], r' as [a'|e']; try contradiction.
      + destruct H as [(A1 & A2 & A3 & A4 & A5 & _) _].
        repeat split; intros; repeat match goal with H : inl _ = inl _ |- _ => injection H as <- end;
          try discriminate; auto; lia.
      + subst e'. repeat split; intros; try discriminate; left; split; congruence.
    - split; [exists rest; left; exact H1|].
      repeat split; intros; repeat match goal with H : inl _ = inl _ |- _ => injection H as <- end;
        try discriminate.
      all: try (subst r'; destruct (H2 _ eq_refl); lia).
      + exists rest; exact H1.
      + subst r'. apply (H2 _ eq_refl).
      + right. exists a, rest. auto.
    - split; [exists rest; right; exact H1|].
      repeat split; intros; repeat match goal with H : inl _ = inl _ |- _ => injection H as <- end;
        try discriminate.
      all: try (subst r; destruct (H2 _ eq_refl); lia).
      + exists rest; exact H1.
      + subst r. apply (H2 _ eq_refl).
      + right. exists b, rest. auto.
  Qed.

  Lemma track_Extends (S : Z -> Prop) (m m' : M OptRes) :
    track (fun c c' => c = c' \/ exists z, c = Some z /\ S z) m m' -> Extends S m m'.
  Proof.
    intros H w a0. unfold exec. specialize (H (mkSt w [] a0)).
    destruct (m _) as [r st], (m' _) as [r' st']. cbn [fst snd] in H.
    destruct H as [[<- H] | [(a & rest & -> & HS & H1 & H2) | (b & rest & -> & HS & H1 & H2)]].
    - destruct r as [a|e], r' as [a'|e']; try contradiction; [|subst; auto].
      destruct H as [(A1 & A2 & A3 & A4 & A5 & A6) HS].
      destruct HS as [HS | (z & [= <-] & HS)]; [left; split; [|reflexivity]; injection HS as HS; rewrite A6; auto|].
      right. split; [exact HS|]. split; [exists []; rewrite app_nil_r; reflexivity|].
      intros y [= <-]. split; [lia|]. split; [rewrite A5; apply grows_refl|]. auto 6.
    - right. destruct HS as [HS | (z & [= <-] & HS)]; [discriminate|]. split; [exact HS|].
      split; [exists rest; exact H1|]. intros y ->. destruct (H2 y eq_refl) as [K1 K2].
      split; [lia|]. split; [exact K2|]. intro K. lia.
    - destruct HS as [HS | (z & HS & _)]; discriminate.
  Qed.

  Definition both01 (c c' : option Z) : Prop :=
    c = c' \/ ((c = Some 0 \/ c = Some 1)%Z /\ (c' = Some 0 \/ c' = Some 1)%Z).

  Lemma track_SameButLabel m m' : track both01 m m' -> SameButLabel m m'.
  Proof.
    intros H w a0. unfold exec. specialize (H (mkSt w [] a0)).
    destruct (m _) as [r st], (m' _) as [r' st']. cbn [fst snd] in H.
    destruct H as [[<- H] | [(a & rest & -> & HS & _) | (b & rest & -> & HS & _)]].
    - split; [reflexivity|]. destruct r as [a|e], r' as [a'|e']; try contradiction; [|auto].
      destruct H as [(A1 & A2 & A3 & A4 & A5 & A6) HS].
      destruct HS as [HS | [HS HS']]; [left; injection HS as HS; rewrite A6; auto|].
      right. split; [destruct HS as [[= ->] | [= ->]]; auto|].
      split; [destruct HS' as [[= ->] | [= ->]]; auto|]. auto 6.
    - destruct HS as [HS | [_ [HS|HS]]]; discriminate.
    - destruct HS as [HS | [[HS|HS] _]]; discriminate.
  Qed.

  (** ** The arguments *)
  Definition de_limits mi xt ft (A : DEArgs) : DEArgs :=
    mkDEArgs (with_limits mi xt ft (dea A)) (dea_mutation A) (dea_recombination A) (dea_strategy A)
             (dea_updating A).
  Definition cpso_limits mi xt ft (A : CPSOArgs) : CPSOArgs :=
    mkCPSOArgs (with_limits mi xt ft (pa A)) (pa_inertia A) (pa_cognitivity A) (pa_sociability A)
               (pa_competitivity A) (pa_updating A).
  Definition pso_limits mi xt ft (A : PSOArgs) : PSOArgs :=
    mkPSOArgs (with_limits mi xt ft (psa A)) (psa_inertia A) (psa_cognitivity A)
              (psa_sociability A) (psa_updating A).
  Definition na_limits mi xt ft (A : NAArgs) : NAArgs :=
    mkNAArgs (with_limits mi xt ft (naa A)) (naa_nrperc A).
  Definition cma_limits mi xt ft (A : CMAArgs) : CMAArgs :=
    mkCMAArgs (with_limits mi xt ft (caa A)) (caa_sigma A) (caa_muperc A).

  (** With return_all both calls need room for two records (with fewer they fail: C18). *)
  Definition Room (a : Args) (mi : Z) : Prop :=
    a_return_all a = false \/ ((2 <= a_maxiter a)%Z /\ (2 <= mi)%Z).

  Lemma own a : with_limits (a_maxiter a) (a_xtol a) (a_ftol a) a = a.
  Proof. destruct a; reflexivity. Qed.
  Lemma own_de A : A = de_limits (a_maxiter (dea A)) (a_xtol (dea A)) (a_ftol (dea A)) A.
  Proof. unfold de_limits. rewrite own. destruct A; reflexivity. Qed.
  Lemma own_cpso A : A = cpso_limits (a_maxiter (pa A)) (a_xtol (pa A)) (a_ftol (pa A)) A.
  Proof. unfold cpso_limits. rewrite own. destruct A; reflexivity. Qed.
  Lemma own_na A : A = na_limits (a_maxiter (naa A)) (a_xtol (naa A)) (a_ftol (naa A)) A.
  Proof. unfold na_limits. rewrite own. destruct A; reflexivity. Qed.
  Lemma own_cma A : A = cma_limits (a_maxiter (caa A)) (a_xtol (caa A)) (a_ftol (caa A)) A.
  Proof. unfold cma_limits. rewrite own. destruct A; reflexivity. Qed.

  (** ** C63: budget and tolerances only decide when to stop *)
  Theorem C63_de A mi xt ft : Room (dea A) mi ->
    SameUntilStop (de_minimize A) (de_minimize (de_limits mi xt ft A)).
  Proof.
    intro HR. apply track_SameUntilStop. rewrite (own_de A) at 1.
    apply track_de_minimize; try (unfold SA; intros; exact I). exact HR.
  Qed.

  Theorem C63_cpso A mi xt ft : Room (pa A) mi ->
    a_maxiter (pa A) = mi \/ truthy (pa_competitivity A) = None ->
    SameUntilStop (cpso_minimize A) (cpso_minimize (cpso_limits mi xt ft A)).
  Proof.
    intros HR HG. apply track_SameUntilStop. rewrite (own_cpso A) at 1.
    apply track_cpso_minimize; try (unfold SA; intros; exact I); assumption.
  Qed.

  Theorem C63_pso A mi xt ft : Room (psa A) mi ->
    SameUntilStop (pso_minimize A) (pso_minimize (pso_limits mi xt ft A)).
  Proof.
    intro HR.
    exact (C63_cpso (mkCPSOArgs (psa A) (psa_inertia A) (psa_cognitivity A) (psa_sociability A)
                                None (psa_updating A)) mi xt ft HR (or_intror eq_refl)).
  Qed.

  Theorem C63_na A mi xt ft : Room (naa A) mi ->
    SameUntilStop (na_minimize A) (na_minimize (na_limits mi xt ft A)).
  Proof.
    intro HR. apply track_SameUntilStop. rewrite (own_na A) at 1.
    apply track_na_minimize; try (unfold SA; intros; exact I). exact HR.
  Qed.

  Theorem C63_cmaes A mi xt ft : (1 <= a_maxiter (caa A))%Z -> (1 <= mi)%Z ->
    SameUntilStop (cmaes_minimize A) (cmaes_minimize (cma_limits mi xt ft A)).
  Proof.
    intros H1 H2. apply track_SameUntilStop. rewrite (own_cma A) at 1.
    apply track_cmaes_minimize; try (unfold SA; intros; exact I); assumption.
  Qed.

  Theorem C63_vdcma A mi xt ft : (1 <= a_maxiter (caa A))%Z -> (1 <= mi)%Z ->
    SameUntilStop (vdcma_minimize A) (vdcma_minimize (cma_limits mi xt ft A)).
  Proof.
    intros H1 H2. apply track_SameUntilStop. rewrite (own_cma A) at 1.
    apply track_vdcma_minimize; try (unfold SA; intros; exact I); assumption.
  Qed.

  (** ** A larger budget: only the runs that stopped for want of iterations go on *)
  Definition Spent (z : Z) : Prop := z = (-1)%Z.
  Let SRb (c c' : option Z) : Prop := c = c' \/ exists z, c = Some z /\ Spent z.

  Lemma SRb_sync mi mi' xt ft : (mi <= mi')%Z -> forall it xb xi fi,
    SRb (sync_status it mi xt ft xb xi fi) (sync_status it mi' xt ft xb xi fi).
  Proof.
    intros H it xb xi fi. unfold sync_status. destruct (_ && _); [left; reflexivity|].
    destruct (nleb fi ft); [left; reflexivity|].
    destruct (mi <=? it)%Z eqn:K; [right; eexists; split; reflexivity|].
    destruct (Z.leb_spec mi' it); [apply Z.leb_gt in K; lia | left; reflexivity].
  Qed.
  Lemma SRb_fin mi mi' : (mi <= mi')%Z -> forall c it, SRb (fin mi it c) (fin mi' it c).
  Proof.
    intros H [c|] it; cbn; [left; reflexivity|].
    destruct (mi <=? it)%Z eqn:K; [right; eexists; split; reflexivity|].
    destruct (Z.leb_spec mi' it); [apply Z.leb_gt in K; lia | left; reflexivity].
  Qed.

  Theorem C63_budget_de A mi : Room (dea A) mi -> (a_maxiter (dea A) <= mi)%Z ->
    Extends Spent (de_minimize A) (de_minimize (de_limits mi (a_xtol (dea A)) (a_ftol (dea A)) A)).
  Proof.
    intros HR HM. apply track_Extends. rewrite (own_de A) at 1.
    apply track_de_minimize; [apply SRb_sync, HM | | | exact HR].
    - intros; intro it. apply SRb_fin, HM.
    - intro it. apply SRb_fin, HM.
  Qed.

  Theorem C63_budget_cpso A mi : Room (pa A) mi -> (a_maxiter (pa A) <= mi)%Z ->
    truthy (pa_competitivity A) = None ->
    Extends Spent (cpso_minimize A) (cpso_minimize (cpso_limits mi (a_xtol (pa A)) (a_ftol (pa A)) A)).
  Proof.
    intros HR HM HG. apply track_Extends. rewrite (own_cpso A) at 1.
    apply track_cpso_minimize; [apply SRb_sync, HM | | | exact HR | right; exact HG].
    - intros; intro it. apply SRb_fin, HM.
    - intro it. apply SRb_fin, HM.
  Qed.

  Theorem C63_budget_pso A mi : Room (psa A) mi -> (a_maxiter (psa A) <= mi)%Z ->
    Extends Spent (pso_minimize A) (pso_minimize (pso_limits mi (a_xtol (psa A)) (a_ftol (psa A)) A)).
  Proof.
    intros HR HM.
    exact (C63_budget_cpso (mkCPSOArgs (psa A) (psa_inertia A) (psa_cognitivity A)
                              (psa_sociability A) None (psa_updating A)) mi HR HM eq_refl).
  Qed.

  Theorem C63_budget_na A mi : Room (naa A) mi -> (a_maxiter (naa A) <= mi)%Z ->
    Extends Spent (na_minimize A) (na_minimize (na_limits mi (a_xtol (naa A)) (a_ftol (naa A)) A)).
  Proof.
    intros HR HM. apply track_Extends. rewrite (own_na A) at 1.
    apply track_na_minimize; [apply SRb_sync, HM | exact HR].
  Qed.

  (** cmaes and vdcma look at the whole array of best values, whose unused part is zero. *)
  Lemma fold_zeros (f : T -> T -> T) (k : nat) : (forall a, f (f a n0) n0 = f a n0) -> forall a,
    0 < k -> fold_left f (repeat n0 k) a = f a n0.
  Proof.
    intro H. induction k as [|k IH]; intros a Hk; [lia|]. cbn [repeat fold_left].
    destruct k as [|k]; [reflexivity|]. rewrite IH by lia. apply H.
  Qed.

  Section Zeros.
    Context {L : OrdLaws (@num_arith N)}.
    Hypothesis H0 : nleb n0 n0 = true.

    Lemma np_max2_zero a : np_max2 (np_max2 a n0) n0 = np_max2 a n0.
    Proof.
      unfold np_max2. destruct (nisnan a) eqn:Ha; [rewrite Ha; reflexivity|].
      destruct (nleb n0 a) eqn:Hl; [rewrite Ha, Hl; reflexivity|].
      destruct (nisnan n0); [reflexivity|]. rewrite H0. reflexivity.
    Qed.
    Lemma np_min2_zero a : np_min2 (np_min2 a n0) n0 = np_min2 a n0.
    Proof.
      unfold np_min2. destruct (nisnan a) eqn:Ha; [rewrite Ha; reflexivity|].
      destruct (nleb a n0) eqn:Hl; [rewrite Ha, Hl; reflexivity|].
      destruct (nisnan n0); [reflexivity|]. rewrite H0. reflexivity.
    Qed.

    Lemma vmax_zeros l k k' : l <> [] -> 0 < k -> 0 < k' ->
      vmax (l ++ repeat n0 k) = vmax (l ++ repeat n0 k').
    Proof.
      intros Hl Hk Hk'. destruct l as [|a l]; [congruence|]. cbn [app vmax].
      rewrite !fold_left_app, !fold_zeros by (auto using np_max2_zero). reflexivity.
    Qed.
    Lemma vmin_zeros l k k' : l <> [] -> 0 < k -> 0 < k' ->
      vmin (l ++ repeat n0 k) = vmin (l ++ repeat n0 k').
    Proof.
      intros Hl Hk Hk'. destruct l as [|a l]; [congruence|]. cbn [app vmin].
      rewrite !fold_left_app, !fold_zeros by (auto using np_min2_zero). reflexivity.
    Qed.

    Lemma slice_zeros h k k' i : 0 < k -> 0 < k' ->
      slice i (length h + 1) (h ++ repeat n0 k) = slice i (length h + 1) (h ++ repeat n0 k').
    Proof.
      intros Hk Hk'. unfold slice.
      assert (G : forall k, 0 < k -> firstn (length h + 1) (h ++ repeat n0 k) = h ++ [n0]).
      { intros j Hj. rewrite firstn_app. replace (length h + 1 - length h) with 1 by lia.
        rewrite firstn_all2 by lia. destruct j; [lia|]. reflexivity. }
      rewrite <- !skipn_firstn_comm, (G k Hk), (G k' Hk'). reflexivity.
    Qed.

    Lemma SRb_conv mi mi' xt ft : (mi <= mi')%Z -> forall it d xm xo h f b sg isg il pc dC BD,
      Z.of_nat (length h) = it -> (1 <= it <= mi)%Z -> (it <= mi')%Z ->
      SRb (converge it d mi xm xo (padded mi h) f b sg isg il pc xt ft dC BD)
          (converge it d mi' xm xo (padded mi' h) f b sg isg il pc xt ft dC BD).
    Proof.
      intros HM it d xm xo h f b sg isg il pc dC BD H1 H2 H3. unfold converge.
      destruct (mi <=? it)%Z eqn:K; [right; eexists; split; reflexivity|]. apply Z.leb_gt in K.
      destruct (Z.leb_spec mi' it); [lia|]. left.
      assert (E1 : slice (Z.to_nat (it - il)) (Z.to_nat (it + 1)) (padded mi h) =
                   slice (Z.to_nat (it - il)) (Z.to_nat (it + 1)) (padded mi' h)).
      { unfold padded. replace (Z.to_nat (it + 1)) with (length h + 1) by lia.
        apply slice_zeros; lia. }
      assert (Hne : f ++ h <> []).
      { destruct f; [|discriminate]. destruct h; [cbn in H1; lia | discriminate]. }
      assert (E2 : vmax (f ++ padded mi h) = vmax (f ++ padded mi' h)).
      { unfold padded. rewrite !app_assoc. apply vmax_zeros; [exact Hne | lia | lia]. }
      assert (E3 : vmin (f ++ padded mi h) = vmin (f ++ padded mi' h)).
      { unfold padded. rewrite !app_assoc. apply vmin_zeros; [exact Hne | lia | lia]. }
      rewrite E1, E2, E3. reflexivity.
    Qed.

    Theorem C63_budget_cmaes A mi : (1 <= a_maxiter (caa A) <= mi)%Z ->
      Extends Spent (cmaes_minimize A)
              (cmaes_minimize (cma_limits mi (a_xtol (caa A)) (a_ftol (caa A)) A)).
    Proof.
      intros HM. apply track_Extends. rewrite (own_cma A) at 1.
      apply track_cmaes_minimize; [apply SRb_conv; lia | lia | lia].
    Qed.

    Theorem C63_budget_vdcma A mi : (1 <= a_maxiter (caa A) <= mi)%Z ->
      Extends Spent (vdcma_minimize A)
              (vdcma_minimize (cma_limits mi (a_xtol (caa A)) (a_ftol (caa A)) A)).
    Proof.
      intros HM. apply track_Extends. rewrite (own_cma A) at 1.
      apply track_vdcma_minimize; [apply SRb_conv; lia | lia | lia].
    Qed.
  End Zeros.

  (** ** A smaller ftol: only the runs that had met ftol go on *)
  Section Ftol.
    Context {L : OrdLaws (@num_arith N)}.
    Definition Met (z : Z) : Prop := (z = 0 \/ z = 1)%Z.
    Let SRf (c c' : option Z) : Prop := c = c' \/ exists z, c = Some z /\ Met z.

    Ltac met := right; eexists; split; [reflexivity|]; unfold Met; auto.

    Lemma SRf_sync mi xt ft ft' : nleb ft' ft = true -> forall it xb xi fi,
      SRf (sync_status it mi xt ft xb xi fi) (sync_status it mi xt ft' xb xi fi).
    Proof.
      intros H it xb xi fi. unfold sync_status.
      destruct (nleb fi ft) eqn:K1.
      - destruct (nleb (vnorm (vsub xb xi)) xt); cbn [andb]; met.
      - destruct (nleb fi ft') eqn:K2; [rewrite (ol_le_trans fi ft' ft K2 H) in K1; discriminate|].
        left. reflexivity.
    Qed.

    Lemma SRf_async mi xt ft ft' : nleb ft' ft = true -> forall c cf xb xbf x xf i it,
      SRf (fin mi it (sa_status (async_sel c cf xb xbf x xf xt ft i)))
          (fin mi it (sa_status (async_sel c cf xb xbf x xf xt ft' i))).
    Proof.
      intros H c cf xb xbf x xf i it. unfold async_sel.
      destruct (nleb cf (nth i xf n0)); [|left; reflexivity].
      destruct (nleb cf xbf); [|left; reflexivity]. cbn [sa_status].
      destruct (nleb cf ft) eqn:K1.
      - destruct (nleb (vnorm (vsub xb c)) xt); cbn; met.
      - destruct (nleb cf ft') eqn:K2; [rewrite (ol_le_trans cf ft' ft K2 H) in K1; discriminate|].
        left. reflexivity.
    Qed.

    Lemma lt_le_trans' x y z : nltb x y = true -> nleb y z = true -> nltb x z = true.
    Proof.
      intros H1 H2. pose proof (ol_lt_nle x y H1) as H3.
      destruct (nltb x z) eqn:E1; [reflexivity|].
      assert (Hx : isnum x) by (eapply lt_num_l, H1). assert (Hz : isnum z) by (eapply le_num_r, H2).
      pose proof (ol_total x z Hx Hz E1) as H4. rewrite (ol_le_trans y z x H2 H4) in H3. discriminate.
    Qed.

    Lemma SRf_conv mi xt ft ft' : nleb ft' ft = true -> forall it d xm xo h f b sg isg il pc dC BD,
      Z.of_nat (length h) = it -> (1 <= it <= mi)%Z -> (it <= mi)%Z ->
      SRf (converge it d mi xm xo (padded mi h) f b sg isg il pc xt ft dC BD)
          (converge it d mi xm xo (padded mi h) f b sg isg il pc xt ft' dC BD).
    Proof.
      intros H it d xm xo h f b sg isg il pc dC BD _ _ _. unfold converge.
      destruct (mi <=? it)%Z; [left; reflexivity|].
      destruct (nleb (vnorm (vsub xo xm)) xt && nltb b ft) eqn:K1; [met|].
      destruct (nleb b ft) eqn:K2; [met|].
      destruct (nltb b ft') eqn:K3.
      { apply ol_lt_le in K3. rewrite (ol_le_trans b ft' ft K3 H) in K2. discriminate. }
      rewrite andb_false_r.
      destruct (nleb b ft') eqn:K4; [rewrite (ol_le_trans b ft' ft K4 H) in K2; discriminate|].
      left. reflexivity.
    Qed.

    Lemma SRf_none mi it : SRf (fin mi it None) (fin mi it None).
    Proof. left. reflexivity. Qed.

    Lemma Room_own a : a_return_all a = false \/ (2 <= a_maxiter a)%Z ->
      RoomFor (a_maxiter a) (a_maxiter a) a.
    Proof. intros [H|H]; [left; exact H | right; auto]. Qed.

    Theorem C63_ftol_de A ft : a_return_all (dea A) = false \/ (2 <= a_maxiter (dea A))%Z ->
      nleb ft (a_ftol (dea A)) = true ->
      Extends Met (de_minimize A) (de_minimize (de_limits (a_maxiter (dea A)) (a_xtol (dea A)) ft A)).
    Proof.
      intros HR HM. apply track_Extends. rewrite (own_de A) at 1.
      apply track_de_minimize; [apply SRf_sync, HM | | | apply Room_own, HR].
      - intros; intro it. apply SRf_async, HM.
      - intro it. apply SRf_none.
    Qed.

    Theorem C63_ftol_cpso A ft : a_return_all (pa A) = false \/ (2 <= a_maxiter (pa A))%Z ->
      nleb ft (a_ftol (pa A)) = true ->
      Extends Met (cpso_minimize A) (cpso_minimize (cpso_limits (a_maxiter (pa A)) (a_xtol (pa A)) ft A)).
    Proof.
      intros HR HM. apply track_Extends. rewrite (own_cpso A) at 1.
      apply track_cpso_minimize; [apply SRf_sync, HM | | | apply Room_own, HR | left; reflexivity].
      - intros; intro it. apply SRf_async, HM.
      - intro it. apply SRf_none.
    Qed.

    Theorem C63_ftol_pso A ft : a_return_all (psa A) = false \/ (2 <= a_maxiter (psa A))%Z ->
      nleb ft (a_ftol (psa A)) = true ->
      Extends Met (pso_minimize A) (pso_minimize (pso_limits (a_maxiter (psa A)) (a_xtol (psa A)) ft A)).
    Proof.
      intros HR HM.
      exact (C63_ftol_cpso (mkCPSOArgs (psa A) (psa_inertia A) (psa_cognitivity A)
                              (psa_sociability A) None (psa_updating A)) ft HR HM).
    Qed.

    Theorem C63_ftol_na A ft : a_return_all (naa A) = false \/ (2 <= a_maxiter (naa A))%Z ->
      nleb ft (a_ftol (naa A)) = true ->
      Extends Met (na_minimize A) (na_minimize (na_limits (a_maxiter (naa A)) (a_xtol (naa A)) ft A)).
    Proof.
      intros HR HM. apply track_Extends. rewrite (own_na A) at 1.
      apply track_na_minimize; [apply SRf_sync, HM | apply Room_own, HR].
    Qed.

    Theorem C63_ftol_cmaes A ft : (1 <= a_maxiter (caa A))%Z -> nleb ft (a_ftol (caa A)) = true ->
      Extends Met (cmaes_minimize A)
              (cmaes_minimize (cma_limits (a_maxiter (caa A)) (a_xtol (caa A)) ft A)).
    Proof.
      intros HR HM. apply track_Extends. rewrite (own_cma A) at 1.
      apply track_cmaes_minimize; [apply SRf_conv, HM | exact HR | exact HR].
    Qed.

    Theorem C63_ftol_vdcma A ft : (1 <= a_maxiter (caa A))%Z -> nleb ft (a_ftol (caa A)) = true ->
      Extends Met (vdcma_minimize A)
              (vdcma_minimize (cma_limits (a_maxiter (caa A)) (a_xtol (caa A)) ft A)).
    Proof.
      intros HR HM. apply track_Extends. rewrite (own_cma A) at 1.
      apply track_vdcma_minimize; [apply SRf_conv, HM | exact HR | exact HR].
    Qed.
  End Ftol.

  (** ** C64: xtol never decides when a run stops *)
  Ltac lab := solve [left; reflexivity | right; split; auto].

  Lemma SRx_sync mi xt xt' ft it xb xi fi :
    both01 (sync_status it mi xt ft xb xi fi) (sync_status it mi xt' ft xb xi fi).
  Proof.
    unfold sync_status, both01. destruct (nleb fi ft); [|rewrite !andb_false_r; left; reflexivity].
    destruct (nleb (vnorm (vsub xb xi)) xt), (nleb (vnorm (vsub xb xi)) xt'); cbn; lab.
  Qed.
  Lemma SRx_async mi xt xt' ft c cf xb xbf x xf i it :
    both01 (fin mi it (sa_status (async_sel c cf xb xbf x xf xt ft i)))
           (fin mi it (sa_status (async_sel c cf xb xbf x xf xt' ft i))).
  Proof.
    unfold async_sel, both01.
    destruct (nleb cf (nth i xf n0)); [|left; reflexivity].
    destruct (nleb cf xbf); [|left; reflexivity]. cbn [sa_status].
    destruct (nleb cf ft); [|rewrite !andb_false_r; left; reflexivity].
    destruct (nleb (vnorm (vsub xb c)) xt), (nleb (vnorm (vsub xb c)) xt'); cbn; lab.
  Qed.
  Lemma SRx_none mi it : both01 (fin mi it None) (fin mi it None).
  Proof. left. reflexivity. Qed.

  Theorem C64_de A xt : a_return_all (dea A) = false \/ (2 <= a_maxiter (dea A))%Z ->
    SameButLabel (de_minimize A)
                 (de_minimize (de_limits (a_maxiter (dea A)) xt (a_ftol (dea A)) A)).
  Proof.
    intros HR. apply track_SameButLabel. rewrite (own_de A) at 1.
    apply track_de_minimize; [apply SRx_sync | | | apply Room_own, HR].
    - intros; intro it. apply SRx_async.
    - intro it. apply SRx_none.
  Qed.
  Theorem C64_cpso A xt : a_return_all (pa A) = false \/ (2 <= a_maxiter (pa A))%Z ->
    SameButLabel (cpso_minimize A)
                 (cpso_minimize (cpso_limits (a_maxiter (pa A)) xt (a_ftol (pa A)) A)).
  Proof.
    intros HR. apply track_SameButLabel. rewrite (own_cpso A) at 1.
    apply track_cpso_minimize; [apply SRx_sync | | | apply Room_own, HR | left; reflexivity].
    - intros; intro it. apply SRx_async.
    - intro it. apply SRx_none.
  Qed.
  Theorem C64_pso A xt : a_return_all (psa A) = false \/ (2 <= a_maxiter (psa A))%Z ->
    SameButLabel (pso_minimize A)
                 (pso_minimize (pso_limits (a_maxiter (psa A)) xt (a_ftol (psa A)) A)).
  Proof.
    intros HR.
    exact (C64_cpso (mkCPSOArgs (psa A) (psa_inertia A) (psa_cognitivity A)
                       (psa_sociability A) None (psa_updating A)) xt HR).
  Qed.
  Theorem C64_na A xt : a_return_all (naa A) = false \/ (2 <= a_maxiter (naa A))%Z ->
    SameButLabel (na_minimize A)
                 (na_minimize (na_limits (a_maxiter (naa A)) xt (a_ftol (naa A)) A)).
  Proof.
    intros HR. apply track_SameButLabel. rewrite (own_na A) at 1.
    apply track_na_minimize; [apply SRx_sync | apply Room_own, HR].
  Qed.

  Section CmaX.
    Context {L : OrdLaws (@num_arith N)}.
    Lemma SRx_conv mi xt xt' ft it d xm xo h f b sg isg il pc dC BD :
      Z.of_nat (length h) = it -> (1 <= it <= mi)%Z -> (it <= mi)%Z ->
      both01 (converge it d mi xm xo (padded mi h) f b sg isg il pc xt ft dC BD)
             (converge it d mi xm xo (padded mi h) f b sg isg il pc xt' ft dC BD).
    Proof.
      intros _ _ _. unfold converge, both01. destruct (mi <=? it)%Z; [left; reflexivity|].
      destruct (nltb b ft) eqn:K.
      - rewrite (ol_lt_le b ft K).
        destruct (nleb (vnorm (vsub xo xm)) xt), (nleb (vnorm (vsub xo xm)) xt'); cbn [andb]; lab.
      - rewrite !andb_false_r. left. reflexivity.
    Qed.

    Theorem C64_cmaes A xt : (1 <= a_maxiter (caa A))%Z ->
      SameButLabel (cmaes_minimize A)
                   (cmaes_minimize (cma_limits (a_maxiter (caa A)) xt (a_ftol (caa A)) A)).
    Proof.
      intros HR. apply track_SameButLabel. rewrite (own_cma A) at 1.
      apply track_cmaes_minimize; [apply SRx_conv | exact HR | exact HR].
    Qed.
    Theorem C64_vdcma A xt : (1 <= a_maxiter (caa A))%Z ->
      SameButLabel (vdcma_minimize A)
                   (vdcma_minimize (cma_limits (a_maxiter (caa A)) xt (a_ftol (caa A)) A)).
    Proof.
      intros HR. apply track_SameButLabel. rewrite (own_cma A) at 1.
      apply track_vdcma_minimize; [apply SRx_conv | exact HR | exact HR].
    Qed.
  End CmaX.
End Claims.
