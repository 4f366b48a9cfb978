(** C22 (argument validation), C23 (which mode runs), C16 (pso), C45 (na's default callback). *)
From Verif Require Import Base Num Env Common DE CPSO NA Mat CMAES VDCMA Sample Hoare EvalRules
  Steps Best Inst Disc.

Section Valid.
  Context {N : Num} {E : Env N}.

  (** ** Valid arguments, as documented *)

  Definition within (lo : Z) (x : T) (hi : Z) : Prop :=
    nleb (nZ lo) x = true /\ nleb x (nZ hi) = true.
  Definition within_open (lo : Z) (x : T) (hi : Z) : Prop :=
    nltb (nZ lo) x = true /\ nleb x (nZ hi) = true.

  (** [bounds] is a sequence of (lower, upper) pairs. *)
  Definition PairBounds (b : nd) (ndim : nat) : Prop := exists rows, b = D2 2 rows /\ length rows = ndim.

  Record ValidPop (a : Args) : Prop := {
    vp_fun : a_callable a = true;
    vp_bounds : exists ndim, PairBounds (a_bounds a) ndim /\
      match a_x0 a with
      | None => True
      | Some x => exists m, x = D2 ndim m /\ Z.of_nat (length m) = a_popsize a
      end;
    vp_pop : (2 <= a_popsize a)%Z;
    vp_cb : a_callback a <> CbBad }.

  Record ValidDE (A : DEArgs) : Prop := {
    vd_pop : ValidPop (dea A);
    vd_mut : within 0 (dea_mutation A) 2;
    vd_rec : within 0 (dea_recombination A) 1;
    vd_str : In (dea_strategy A) ["rand1bin"; "rand2bin"; "best1bin"; "best2bin"]%string;
    vd_upd : In (dea_updating A) ["immediate"; "deferred"]%string;
    vd_con : In (a_constraints (dea A)) [None; Some "Random"%string] }.

  Record ValidCPSO (A : CPSOArgs) : Prop := {
    vc_pop : ValidPop (pa A);
    vc_w : within 0 (pa_inertia A) 1;
    vc_c1 : within 0 (pa_cognitivity A) 4;
    vc_c2 : within 0 (pa_sociability A) 4;
    vc_g : match pa_competitivity A with None => True | Some g => within 0 g 2 end;
    vc_upd : In (pa_updating A) ["immediate"; "deferred"]%string;
    vc_con : In (a_constraints (pa A)) [None; Some "Shrink"%string] }.

  Record ValidNA (A : NAArgs) : Prop := {
    vn_pop : ValidPop (naa A);
    vn_nr : within_open 0 (naa_nrperc A) 1 }.

  (** cmaes and vdcma: x0 is one point.  Note [~ sigma <= 0] instead of [0 < sigma]: NaN passes. *)
  Record ValidCMA (A : CMAArgs) : Prop := {
    vm_fun : a_callable (caa A) = true;
    vm_bounds : exists ndim, PairBounds (a_bounds (caa A)) ndim /\
      match a_x0 (caa A) with None => True | Some x => exists v, x = D1 v /\ length v = ndim end;
    vm_sigma : nleb (caa_sigma A) (nZ 0) = false;
    vm_mu : within_open 0 (caa_muperc A) 1;
    vm_con : In (a_constraints (caa A)) [None; Some "Penalize"%string];
    vm_cb : a_callback (caa A) <> CbBad }.

  (** every difference between an upper and a lower bound is a finite number *)
  Definition FiniteRange (b : nd) : Prop :=
    match b with
    | D2 2 rows => Forall (fun r => let range := nsub (nth 1 r n0) (nth 0 r n0) in
                                    neqb (nsub range range) n0 = true) rows
    | _ => True
    end.

  (** samplers *)
  Record ValidS (a : SArgs) : Prop := {
    vs_fun : s_callable a = true;
    vs_bounds : exists ndim, PairBounds (s_bounds a) ndim /\
      match s_x0 a with None => True | Some x => exists v, x = D1 v /\ length v = ndim end /\
      match s_stepsize a with D0 _ => True | D1 v => length v = ndim | D2 _ _ => False end;
    vs_range : s_x0 a = None -> FiniteRange (s_bounds a);
    vs_mx : (1 <= s_maxiter a)%Z;
    vs_cb : s_callback a <> CbBad }.
  Record ValidMC (A : MCArgs) : Prop := {
    vmc : ValidS (mca A); vmc_perc : within 0 (mca_perc A) 1 }.
  Record ValidHM (A : HMCArgs) : Prop := {
    vhm : ValidS (hma A); vhm_nleap : (1 <= hma_nleap A)%Z; vhm_jac : hma_jac A <> JacBad }.

  (** ** Rejection: an exception of the argument kind, no call of user code *)

  Definition argerr (e : Exn) : Prop :=
    e = ValueError \/ e = TypeError \/ e = KeyError \/ e = IndexError \/ e = OverflowError.
  Definition Rejected {A} (m : M A) (s : St) : Prop :=
    exists e s', m s = (inr e, s') /\ argerr e /\ tr s' = tr s /\ snd (rs s') = snd (rs s).

  Lemma rej_if {A} b e (k : unit -> M A) s (V : Prop) :
    argerr e -> (b = false -> Rejected (k tt) s \/ V) -> Rejected (bind (raise_if b e) k) s \/ V.
  Proof.
    intros He H. destruct b.
    - left. exists e, s. unfold bind, raise_if, raise. auto.
    - exact (H eq_refl).
  Qed.
  Lemma rej_orelse {A B} (o : option A) e (k : A -> M B) s (V : Prop) :
    argerr e -> (forall a, o = Some a -> Rejected (k a) s \/ V) -> Rejected (bind (orelse o e) k) s \/ V.
  Proof.
    intros He H. destruct o as [a|].
    - exact (H a eq_refl).
    - left. exists e, s. unfold bind, orelse, raise. auto.
  Qed.
  Lemma bind_assoc {A B C} (m : M A) (k : A -> M B) (k2 : B -> M C) s :
    bind (bind m k) k2 s = bind m (fun a => bind (k a) k2) s.
  Proof. unfold bind. destruct (m s) as [[a|e] s']; reflexivity. Qed.
  Lemma rej_assoc {A B C} (m : M A) (k : A -> M B) (k2 : B -> M C) s (V : Prop) :
    Rejected (bind m (fun a => bind (k a) k2)) s \/ V -> Rejected (bind (bind m k) k2) s \/ V.
  Proof.
    intros [(e & s' & H)|H]; auto. left. exists e, s'. rewrite bind_assoc. exact H.
  Qed.
  (** a part that only moves the generator or the caller's array *)
  Lemma rej_skip {A B} (m : M A) (k : A -> M B) s (V : Prop) a s1 :
    m s = (inl a, s1) -> tr s1 = tr s -> snd (rs s1) = snd (rs s) ->
    Rejected (k a) s1 \/ V -> Rejected (bind m k) s \/ V.
  Proof.
    intros Hm Ht Hu [(e & s' & H1 & H2 & H3 & H4)|H]; auto. left. exists e, s'.
    unfold bind. rewrite Hm. repeat split; auto; congruence.
  Qed.

  Lemma rej_seed {A} o (k : unit -> M A) s (V : Prop) :
    (forall s1, tr s1 = tr s -> snd (rs s1) = snd (rs s) -> Rejected (k tt) s1 \/ V) ->
    Rejected (bind (seed o) k) s \/ V.
  Proof.
    intros H. destruct o as [z|].
    - eapply rej_skip; try reflexivity. apply H; reflexivity.
    - eapply rej_skip; try reflexivity. apply H; reflexivity.
  Qed.

  (** ** C23: the mode never is an error *)
  Theorem C23_no_backend_error sync workers backend :
    exists m, eval_kind sync workers backend = inl m /\
      (* joblib: deferred, backend loky, threading or default, workers not in {0, 1} *)
      (m = Joblib <-> sync = true /\ workers <> 0%Z /\ workers <> 1%Z /\
         (backend = None \/ In backend [Some ""; Some "loky"; Some "threading"]%string)) /\
      (m = Mpi <-> sync = true /\ backend = Some "mpi"%string) /\
      (* any other backend: serial *)
      (m = Serial \/ m = Joblib \/ m = Mpi).
  Proof.
    unfold eval_kind, wrapper_kind, in_prefer.
    destruct (Z.eqb_spec workers 0) as [W0|W0], (Z.eqb_spec workers 1) as [W1|W1]; subst;
    destruct sync, backend as [b|];
      try (destruct (String.eqb_spec b "") as [Hb|Hb]; subst; cbn [String.eqb Ascii.eqb Bool.eqb andb orb negb In]);
      try (destruct (String.eqb_spec b "loky") as [H1|H1]; subst);
      try (destruct (String.eqb_spec b "threading") as [H2|H2]; subst);
      try (destruct (String.eqb_spec b "mpi") as [H3|H3]; subst);
      cbn -[Z.eqb In];
      (eexists; split; [reflexivity|]);
      (split; [|split; [|auto]]);
      (split; [intros Hx; try discriminate Hx | intros Hx]);
      cbn [In] in *; try (repeat split; auto; fail);
      try (repeat split; intuition (congruence || lia); fail);
      try (exfalso; intuition (congruence || lia); fail).
  Qed.

  (** ** C22, rejection *)

  Lemma argerr_int x : argerr (int_exn x).
  Proof. unfold argerr, int_exn. destruct (neqb x x); auto 6. Qed.
  Ltac av := first [apply argerr_int | unfold argerr; auto 6].

  Lemma rej_check_pop {A} a (k : unit -> M A) s (V : Prop) :
    ((a_callable a = true /\ ndim_is 2 (a_bounds a) = true /\ (2 <= a_popsize a)%Z /\
      match a_x0 a with
      | None => True
      | Some x => ndim_is 2 x = true /\ nd_cols x = nd_len (a_bounds a) /\
                  Z.of_nat (nd_len x) = a_popsize a
      end) -> Rejected (k tt) s \/ V) ->
    Rejected (bind (check_pop a) k) s \/ V.
  Proof.
    intros H. unfold check_pop.
    repeat (apply rej_assoc; apply rej_if; [av|intro]).
    apply rej_if; [av|]. intros H4. apply H.
    rewrite negb_false_iff in *. rewrite Z.ltb_ge in *.
    repeat split; auto.
    destruct (a_x0 a) as [x|]; auto.
    match goal with Hx : (_ || _) = false |- _ => apply orb_false_iff in Hx; destruct Hx as [Hx1 Hx2] end.
    rewrite negb_false_iff in *. rewrite Nat.eqb_eq in *. rewrite Z.eqb_eq in *. auto.
  Qed.

  Lemma rej_seed_and_cb {A} a (k : unit -> M A) s (V : Prop) :
    (a_callback a <> CbBad -> forall s1, tr s1 = tr s -> snd (rs s1) = snd (rs s) ->
       Rejected (k tt) s1 \/ V) ->
    Rejected (bind (seed_and_cb a) k) s \/ V.
  Proof.
    intros H. unfold seed_and_cb. apply rej_assoc. apply rej_seed. intros s1 H1 H2.
    apply rej_if; [av|]. intros Hc. apply H; auto. destruct (a_callback a); discriminate || congruence.
  Qed.

  Lemma rej_eval_kindM {A} sync w b (k : Mode -> M A) s (V : Prop) :
    (forall m, Rejected (k m) s \/ V) -> Rejected (bind (eval_kindM sync w b) k) s \/ V.
  Proof.
    intros H. unfold eval_kindM. destruct (C23_no_backend_error sync w b) as (m & -> & _). apply H.
  Qed.

  Lemma rej_unpack {A} b (k : vec * vec -> M A) s (V : Prop) :
    (forall rows l, b = D2 2 rows -> Rejected (k l) s \/ V) ->
    Rejected (bind (unpack_bounds b) k) s \/ V.
  Proof.
    intros H. unfold unpack_bounds.
    assert (Hr : Rejected (bind (@raise _ _ (vec * vec) ValueError) k) s \/ V).
    { left. exists ValueError, s. repeat split; auto. left; reflexivity. }
    destruct b as [x|v|c rows]; try exact Hr.
    destruct c as [|[|[|c]]]; try exact Hr. exact (H rows _ eq_refl).
  Qed.

  Lemma rej_unpack2 {A} b (k : vec * vec -> M A) s (V : Prop) :
    (forall rows, b = D2 2 rows -> Rejected (k (map (fun r => nth 0 r n0) rows, map (fun r => nth 1 r n0) rows)) s \/ V) ->
    Rejected (bind (unpack_bounds b) k) s \/ V.
  Proof.
    intros H. unfold unpack_bounds.
    assert (Hr : Rejected (bind (@raise _ _ (vec * vec) ValueError) k) s \/ V).
    { left. exists ValueError, s. repeat split; auto. left; reflexivity. }
    destruct b as [x|v|c rows]; try exact Hr.
    destruct c as [|[|[|c]]]; try exact Hr. exact (H rows eq_refl).
  Qed.

  Lemma frange_rows rows :
    frange (map (fun r => nth 0 r n0) rows) (map (fun r => nth 1 r n0) rows) = true <-> FiniteRange (D2 2 rows).
  Proof.
    unfold frange, FiniteRange, nfinite. cbv zeta. induction rows as [|r rows IH]; cbn [map combine forallb fst snd].
    - split; auto.
    - rewrite andb_true_iff, IH, Forall_cons_iff. reflexivity.
  Qed.

  Lemma outside_false lo x hi : outside (nZ lo) x (nZ hi) = false -> within lo x hi.
  Proof.
    unfold outside, within. rewrite negb_false_iff, andb_true_iff. auto.
  Qed.
  Lemma outside_open_false lo x hi : outside_open (nZ lo) x (nZ hi) = false -> within_open lo x hi.
  Proof.
    unfold outside_open, within_open. rewrite negb_false_iff, andb_true_iff. auto.
  Qed.

  Lemma strategy_In s st : strategy_map s = Some st ->
    In s ["rand1bin"; "rand2bin"; "best1bin"; "best2bin"]%string.
  Proof.
    unfold strategy_map.
    destruct (String.eqb_spec s "rand1bin"); [subst; cbn; auto|].
    destruct (String.eqb_spec s "rand2bin"); [subst; cbn; auto|].
    destruct (String.eqb_spec s "best1bin"); [subst; cbn; auto|].
    destruct (String.eqb_spec s "best2bin"); [subst; cbn; auto 6|]. discriminate.
  Qed.
  Lemma updating_In u :
    negb (String.eqb u "immediate" || String.eqb u "deferred") = false ->
    In u ["immediate"; "deferred"]%string.
  Proof.
    rewrite negb_false_iff, orb_true_iff, !String.eqb_eq. cbn. intuition.
  Qed.
  Lemma valid_pop a rows :
    a_callable a = true -> a_bounds a = D2 2 rows -> (2 <= a_popsize a)%Z ->
    match a_x0 a with
    | None => True
    | Some x => ndim_is 2 x = true /\ nd_cols x = nd_len (a_bounds a) /\
                Z.of_nat (nd_len x) = a_popsize a
    end -> a_callback a <> CbBad -> ValidPop a.
  Proof.
    intros H1 H2 H3 H4 H5. constructor; auto. exists (length rows). split.
    - exists rows; auto.
    - destruct (a_x0 a) as [[x|v|c m]|]; auto; destruct H4 as (H6 & H7 & H8); try discriminate.
      cbn in *. rewrite H2 in H7. cbn in H7. subst c. exists m; auto.
  Qed.

  Theorem C22_rejected_de A w a0 :
    ~ ValidDE A -> Rejected (de_minimize A) (mkSt w [] a0).
  Proof.
    intros HV.
    assert (H : Rejected (de_minimize A) (mkSt w [] a0) \/ ValidDE A); [|tauto]. clear HV.
    unfold de_minimize. cbn zeta.
    apply rej_check_pop. intros (H1 & H2 & H3 & H4).
    apply rej_if; [av|]. intros H5. apply rej_if; [av|]. intros H6.
    unfold check_updating. apply rej_if; [av|]. intros H7.
    apply rej_orelse; [av|]. intros st H8.
    apply rej_seed_and_cb. intros H9 s1 _ _.
    unfold de. apply rej_eval_kindM. intros m. cbn zeta.
    apply rej_unpack. intros rows [lo hi] H10.
    apply rej_orelse; [av|]. intros con H11.
    right. constructor.
    - eapply valid_pop; eauto.
    - apply outside_false; assumption.
    - apply outside_false; assumption.
    - eapply strategy_In; eassumption.
    - apply updating_In; assumption.
    - unfold de_cons_map in H11. destruct (a_constraints (dea A)) as [c|]; cbn; auto.
      destruct (String.eqb_spec c "Random"); [subst; auto|discriminate].
  Qed.

  Theorem C22_rejected_cpso A w a0 :
    ~ ValidCPSO A -> Rejected (cpso_minimize A) (mkSt w [] a0).
  Proof.
    intros HV.
    assert (H : Rejected (cpso_minimize A) (mkSt w [] a0) \/ ValidCPSO A); [|tauto]. clear HV.
    unfold cpso_minimize. cbn zeta.
    apply rej_check_pop. intros (H1 & H2 & H3 & H4).
    apply rej_if; [av|]. intros H5. apply rej_if; [av|]. intros H6.
    apply rej_if; [av|]. intros H6'. apply rej_if; [av|]. intros H6''.
    unfold check_updating. apply rej_if; [av|]. intros H7.
    apply rej_seed_and_cb. intros H9 s1 _ _.
    unfold cpso. apply rej_eval_kindM. intros m. cbn zeta.
    apply rej_unpack. intros rows [lo hi] H10.
    apply rej_orelse; [av|]. intros con H11.
    right. constructor; try (apply outside_false; assumption).
    - eapply valid_pop; eauto.
    - destruct (pa_competitivity A) as [g|]; auto. apply outside_false; assumption.
    - apply updating_In; assumption.
    - unfold pso_cons_map in H11. destruct (a_constraints (pa A)) as [c|]; cbn; auto.
      destruct (String.eqb_spec c "Shrink"); [subst; auto|discriminate].
  Qed.

  Theorem C22_rejected_na A w a0 :
    ~ ValidNA A -> Rejected (na_minimize A) (mkSt w [] a0).
  Proof.
    intros HV.
    assert (H : Rejected (na_minimize A) (mkSt w [] a0) \/ ValidNA A); [|tauto]. clear HV.
    unfold na_minimize. cbn zeta.
    apply rej_check_pop. intros (H1 & H2 & H3 & H4).
    apply rej_if; [av|]. intros H5.
    apply rej_seed_and_cb. intros H9 s1 _ _.
    unfold na. apply rej_eval_kindM. intros m. cbn zeta.
    apply rej_unpack. intros rows [lo hi] H10.
    right. constructor.
    - eapply valid_pop; eauto.
    - apply outside_open_false; assumption.
  Qed.

  Lemma rej_cma_check {A} (C : CMAArgs) (k : unit -> M A) s (V : Prop) :
    (a_callable (caa C) = true -> ndim_is 2 (a_bounds (caa C)) = true ->
     match a_x0 (caa C) with
     | None => True
     | Some x => ndim_is 1 x = true /\ nd_len x = nd_len (a_bounds (caa C))
     end ->
     nleb (caa_sigma C) (nZ 0) = false -> within_open 0 (caa_muperc C) 1 ->
     a_callback (caa C) <> CbBad ->
     forall s1, tr s1 = tr s -> snd (rs s1) = snd (rs s) -> Rejected (k tt) s1 \/ V) ->
    Rejected (bind (cma_check C) k) s \/ V.
  Proof.
    intros H. unfold cma_check. cbn zeta.
    repeat (apply rej_assoc; apply rej_if; [av|intro]).
    apply rej_seed_and_cb. intros Hc. apply H; auto.
    - rewrite negb_false_iff in *; auto.
    - rewrite negb_false_iff in *; auto.
    - destruct (a_x0 (caa C)) as [x|]; auto.
      match goal with Hx : (_ || _) = false |- _ => apply orb_false_iff in Hx; destruct Hx as [Hx1 Hx2] end.
      rewrite negb_false_iff in *. rewrite Nat.eqb_eq in *. auto.
    - apply outside_open_false; assumption.
  Qed.

  Lemma rej_cma_setup {A} (C : CMAArgs) (k : vec * CMAParams -> M A) s (V : Prop) :
    (a_callable (caa C) = true -> ndim_is 2 (a_bounds (caa C)) = true ->
     match a_x0 (caa C) with
     | None => True
     | Some x => ndim_is 1 x = true /\ nd_len x = nd_len (a_bounds (caa C))
     end ->
     nleb (caa_sigma C) (nZ 0) = false -> within_open 0 (caa_muperc C) 1 ->
     a_callback (caa C) <> CbBad ->
    (ValidCMA C -> V) ->
    Rejected (bind (cma_setup C) k) s \/ V).
  Proof.
    intros H1 H2 H3 H4 H5 H6 H7. unfold cma_setup. cbn zeta.
    apply rej_assoc. apply rej_eval_kindM. intros m. cbn zeta.
    apply rej_assoc. apply rej_unpack. intros rows [lo hi] H10.
    apply rej_assoc. unfold cma_cons_check.
    assert (Hv : In (a_constraints (caa C)) [None; Some "Penalize"%string] -> V).
    { intros Hin. apply H7. constructor; auto. exists (length rows). split; [exists rows; auto|].
      destruct (a_x0 (caa C)) as [[x|v|c m']|]; auto; destruct H3 as [H3 H3']; try discriminate.
      exists v; split; auto. cbn in H3'. rewrite H3', H10. reflexivity. }
    destruct (a_constraints (caa C)) as [c|]; [|right; apply Hv; cbn; auto].
    destruct (String.eqb_spec c "Penalize"); [subst; right; apply Hv; cbn; auto|].
    left. eexists; eexists; split; [reflexivity|]. cbn. unfold argerr. auto.
  Qed.

  Theorem C22_rejected_cmaes A w a0 :
    ~ ValidCMA A -> Rejected (cmaes_minimize A) (mkSt w [] a0).
  Proof.
    intros HV.
    assert (H : Rejected (cmaes_minimize A) (mkSt w [] a0) \/ ValidCMA A); [|tauto]. clear HV.
    apply rej_cma_check. intros H1 H2 H3 H4 H5 H6 s1 _ _.
    unfold cmaes. cbn zeta. apply rej_cma_setup; auto.
  Qed.
  Theorem C22_rejected_vdcma A w a0 :
    ~ ValidCMA A -> Rejected (vdcma_minimize A) (mkSt w [] a0).
  Proof.
    intros HV.
    assert (H : Rejected (vdcma_minimize A) (mkSt w [] a0) \/ ValidCMA A); [|tauto]. clear HV.
    apply rej_cma_check. intros H1 H2 H3 H4 H5 H6 s1 _ _.
    unfold vdcma. cbn zeta. apply rej_cma_setup; auto.
  Qed.

  Theorem C22_rejected_pso A w a0 :
    ~ ValidCPSO (mkCPSOArgs (psa A) (psa_inertia A) (psa_cognitivity A) (psa_sociability A)
                            None (psa_updating A)) ->
    Rejected (pso_minimize A) (mkSt w [] a0).
  Proof. intros H. exact (C22_rejected_cpso _ w a0 H). Qed.

  Lemma rej_s_check {A} a (k : vec * vec -> M A) s (V : Prop) :
    (s_callable a = true -> forall rows l, s_bounds a = D2 2 rows ->
     (frange (fst l) (snd l) = true -> FiniteRange (s_bounds a)) ->
     match s_x0 a with None => True | Some x => ndim_is 0 x = false /\ nd_len x = length rows end ->
     Rejected (k l) s \/ V) ->
    Rejected (bind (s_check_x0 a) k) s \/ V.
  Proof.
    intros H. unfold s_check_x0.
    repeat (apply rej_assoc; apply rej_if; [av|intro]).
    apply rej_assoc. apply rej_unpack2. intros rows Hb. rewrite negb_false_iff in *.
    assert (HR : frange (map (fun r => nth 0 r n0) rows) (map (fun r => nth 1 r n0) rows) = true -> FiniteRange (s_bounds a))
      by (rewrite Hb; apply frange_rows).
    set (lo := map (fun r => nth 0 r n0) rows) in *. set (hi := map (fun r => nth 1 r n0) rows) in *.
    destruct (s_x0 a) as [[x|v|c m]|] eqn:Hx.
    - left. eexists; eexists; repeat split. right; left; reflexivity.
    - apply rej_assoc. apply rej_if; [av|]. intros Hl.
      rewrite negb_false_iff, Nat.eqb_eq in Hl. rewrite Hb in Hl.
      exact (H ltac:(assumption) rows (lo, hi) Hb HR (conj eq_refl Hl)).
    - apply rej_assoc. apply rej_if; [av|]. intros Hl.
      rewrite negb_false_iff, Nat.eqb_eq in Hl. rewrite Hb in Hl.
      exact (H ltac:(assumption) rows (lo, hi) Hb HR (conj eq_refl Hl)).
    - exact (H ltac:(assumption) rows (lo, hi) Hb HR Logic.I).
  Qed.

  Lemma rej_s_steps {A} a lo hi rows (k : vec -> M A) s (V : Prop) :
    s_bounds a = D2 2 rows ->
    (match s_stepsize a with D0 _ => True | D1 v => length v = length rows | D2 _ _ => False end ->
     forall v s1, tr s1 = tr s -> snd (rs s1) = snd (rs s) -> Rejected (k v) s1 \/ V) ->
    Rejected (bind (s_steps a lo hi) k) s \/ V.
  Proof.
    intros Hb H. unfold s_steps. rewrite Hb. cbn zeta. cbn [nd_len].
    destruct (s_stepsize a) as [x|v|c m]; apply rej_assoc; apply rej_if; try av; intros Hl;
      rewrite negb_false_iff, Nat.eqb_eq in Hl.
    - apply (rej_skip _ _ s V _ s eq_refl eq_refl eq_refl). apply H; auto.
    - destruct (s_stepsize_array a).
      + eapply (rej_skip _ _ s V _ (mkSt (rs s) (tr s) _)); [reflexivity|reflexivity|reflexivity|].
        apply H; auto.
      + apply (rej_skip _ _ s V _ s eq_refl eq_refl eq_refl). apply H; auto.
    - left. eexists; eexists; split; [reflexivity|]. cbn. unfold argerr. auto.
  Qed.

  Lemma uniform_row_run lo hi s : exists v r,
    uniform_row lo hi s = (inl v, mkSt (r, snd (rs s)) (tr s) (argbuf s)).
  Proof.
    unfold uniform_row. generalize (combine lo hi). intros l. revert s.
    induction l as [|b l IH]; intros s; cbn.
    - exists [], (fst (rs s)). destruct s as [[r u] t a]; reflexivity.
    - destruct (e_rand (fst (rs s))) as [u r] eqn:Hr.
      destruct (IH (mkSt (r, snd (rs s)) (tr s) (argbuf s))) as (v & r' & Hv).
      exists (nadd (fst b) (nmul (nsub (snd b) (fst b)) u) :: v), r'.
      assert (Hu : uniform (fst b) (snd b) s =
                   (inl (nadd (fst b) (nmul (nsub (snd b) (fst b)) u)),
                    mkSt (r, snd (rs s)) (tr s) (argbuf s)))
        by (unfold uniform, bind, rand, draw; rewrite Hr; reflexivity).
      unfold bind at 1. rewrite Hu. unfold bind. rewrite Hv. reflexivity.
  Qed.

  Lemma uniform_vec_run lo hi s : frange lo hi = true -> exists v r,
    uniform_vec lo hi s = (inl v, mkSt (r, snd (rs s)) (tr s) (argbuf s)).
  Proof.
    intros H. unfold uniform_vec, urange. rewrite H. exact (uniform_row_run lo hi s).
  Qed.

  Lemma rej_s_first {A} a lo hi (k : vec -> M A) s (V : Prop) :
    ((1 <= s_maxiter a)%Z -> match s_x0 a with None => True | Some x => ndim_is 1 x = true end ->
     (s_x0 a = None -> frange lo hi = true) -> V) ->
    Rejected (bind (s_first a lo hi) k) s \/ V.
  Proof.
    intros H. unfold s_first.
    apply rej_assoc. apply rej_if; [av|]. intros Hm. apply Z.ltb_ge in Hm.
    assert (Hz : match s_x0 a with None => True | Some x => ndim_is 1 x = true end ->
       (s_x0 a = None -> frange lo hi = true) -> forall x s1, Rejected (bind (raise_if (s_maxiter a =? 0)%Z IndexError ;;; ret x) k) s1 \/ V).
    { intros Hx HR x s1. apply rej_assoc. apply rej_if; [av|]. intros Hz. right. apply H; auto.
      apply Z.eqb_neq in Hz. lia. }
    apply rej_assoc.
    destruct (s_x0 a) as [[x|v|c m]|];
      try (left; eexists; eexists; split; [reflexivity|]; cbn; unfold argerr; auto; fail).
    - exact (Hz eq_refl ltac:(discriminate) v s).
    - destruct (frange lo hi) eqn:HR.
      + destruct (uniform_vec_run lo hi s HR) as (v & r & Hv).
        eapply rej_skip; [exact Hv|reflexivity|reflexivity|]. apply Hz; auto.
      + left. exists OverflowError, s. unfold uniform_vec, urange, bind. rewrite HR.
        split; [reflexivity|]. repeat split. unfold argerr; auto.
  Qed.

  Lemma rej_s_seed_cb {A} a (k : unit -> M A) s (V : Prop) :
    (s_callback a <> CbBad -> forall s1, tr s1 = tr s -> snd (rs s1) = snd (rs s) ->
       Rejected (k tt) s1 \/ V) ->
    Rejected (bind (s_seed_cb a) k) s \/ V.
  Proof.
    intros H. unfold s_seed_cb. apply rej_assoc. apply rej_seed. intros s1 H1 H2.
    apply rej_if; [av|]. intros Hc. apply H; auto. destruct (s_callback a); discriminate || congruence.
  Qed.

  Lemma valid_s a rows :
    s_callable a = true -> s_bounds a = D2 2 rows ->
    match s_x0 a with None => True | Some x => ndim_is 0 x = false /\ nd_len x = length rows end ->
    match s_x0 a with None => True | Some x => ndim_is 1 x = true end ->
    (s_x0 a = None -> FiniteRange (s_bounds a)) ->
    match s_stepsize a with D0 _ => True | D1 v => length v = length rows | D2 _ _ => False end ->
    (1 <= s_maxiter a)%Z -> s_callback a <> CbBad -> ValidS a.
  Proof.
    intros H1 H2 H3 H4 HR H5 H6 H7. constructor; auto. exists (length rows).
    split; [exists rows; auto|]. split; auto.
    destruct (s_x0 a) as [[x|v|c m]|]; try discriminate; auto. exists v. split; [reflexivity|apply H3].
  Qed.

  Theorem C22_rejected_mcmc A w a0 :
    ~ ValidMC A -> Rejected (mcmc_sample A) (mkSt w [] a0).
  Proof.
    intros HV.
    assert (H : Rejected (mcmc_sample A) (mkSt w [] a0) \/ ValidMC A); [|tauto]. clear HV.
    unfold mcmc_sample, mcmc_fuel. cbn zeta.
    apply rej_s_check. intros H1 rows [lo hi] H2 HR H3. cbn [fst snd] in HR.
    eapply rej_s_steps; [exact H2|]. intros H4 v s1 _ _.
    apply rej_if; [av|]. intros H5.
    apply rej_orelse; [av|]. intros b H6.
    apply rej_s_seed_cb. intros H7 s2 _ _.
    apply rej_s_first. intros H8 H9 H10. constructor.
    - eapply valid_s; eauto.
    - apply outside_false; assumption.
  Qed.

  Theorem C22_rejected_hmc A w a0 :
    ~ ValidHM A -> Rejected (hmc_sample A) (mkSt w [] a0).
  Proof.
    intros HV.
    assert (H : Rejected (hmc_sample A) (mkSt w [] a0) \/ ValidHM A); [|tauto]. clear HV.
    unfold hmc_sample. cbn zeta.
    apply rej_s_check. intros H1 rows [lo hi] H2 HR H3. cbn [fst snd] in HR.
    apply rej_if; [av|]. intros H5.
    eapply rej_s_steps; [exact H2|]. intros H4 v s1 _ _.
    apply rej_if; [av|]. intros H6.
    apply rej_s_seed_cb. intros H7 s2 _ _.
    apply rej_s_first. intros H8 H9 H10. constructor.
    - eapply valid_s; eauto.
    - apply Z.ltb_ge; assumption.
    - destruct (hma_jac A); discriminate || congruence.
  Qed.

  (** NaN is rejected by the two-sided range checks. *)
  Theorem C22_nan_rejected {L : OrdLaws num_arith} :
    (forall A : DEArgs, ~ isnum (dea_mutation A) \/ ~ isnum (dea_recombination A) -> ~ ValidDE A) /\
    (forall A : CPSOArgs, ~ isnum (pa_inertia A) \/ ~ isnum (pa_cognitivity A) \/
                          ~ isnum (pa_sociability A) -> ~ ValidCPSO A) /\
    (forall A : NAArgs, ~ isnum (naa_nrperc A) -> ~ ValidNA A) /\
    (forall A : CMAArgs, ~ isnum (caa_muperc A) -> ~ ValidCMA A) /\
    (forall A : MCArgs, ~ isnum (mca_perc A) -> ~ ValidMC A).
  Proof.
    assert (H1 : forall lo x hi, within lo x hi -> isnum x)
      by (intros lo x hi [_ H]; eapply le_num_l; exact H).
    assert (H2 : forall lo x hi, within_open lo x hi -> isnum x)
      by (intros lo x hi [_ H]; eapply le_num_l; exact H).
    repeat split; intros A HA HV; destruct HV; intuition eauto.
  Qed.

  (** ... but not by the one-sided check of sigma. *)
  Theorem C22_nan_sigma {L : OrdLaws num_arith} a sigma mu :
    ValidCMA (mkCMAArgs a n1 mu) -> ~ isnum sigma -> ValidCMA (mkCMAArgs a sigma mu).
  Proof.
    intros [H1 H2 _ H4 H5 H6] Hs. constructor; auto. cbn. apply nan_le_l; exact Hs.
  Qed.

  (** ** C22, acceptance: valid arguments reach the objective *)

  (** The computation continues the trace with an evaluation (a collective evaluation for MPI). *)
  Definition evaluates (e : event) : Prop :=
    match e with EEval _ _ | EBcast _ => True | _ => False end.
  Definition speaks {A} (m : M A) (s : St) : Prop :=
    exists e evs, tr (snd (m s)) = tr s ++ e :: evs /\ evaluates e.

  Lemma speaks_l {A B} (m : M A) (k : A -> M B) s :
    speaks m s -> (forall a, disc (k a)) -> speaks (bind m k) s.
  Proof.
    intros (e & evs & H1 & H2) Hk. unfold speaks, bind.
    destruct (m s) as [[a|x] s'] eqn:Hm; cbn in *; [|eauto].
    destruct (Hk a s') as (evs' & He & _). exists e, (evs ++ evs'). split; [|exact H2].
    rewrite He, H1, <- app_assoc. reflexivity.
  Qed.

  (** a part that always succeeds and calls nobody *)
  Definition silent {A} (m : M A) (Q : A -> Prop) : Prop :=
    forall s, exists a s', m s = (inl a, s') /\ tr s' = tr s /\ Q a.
  Lemma speaks_r {A B} (m : M A) (k : A -> M B) (Q : A -> Prop) s :
    silent m Q -> (forall a s', Q a -> tr s' = tr s -> speaks (k a) s') -> speaks (bind m k) s.
  Proof.
    intros Hm Hk. destruct (Hm s) as (a & s' & H1 & H2 & H3).
    destruct (Hk a s' H3 H2) as (e & evs & H4 & H5). exists e, evs.
    unfold bind. rewrite H1. rewrite H4, H2. auto.
  Qed.
  Lemma silent_ret {A} (a : A) (Q : A -> Prop) : Q a -> silent (ret a) Q.
  Proof. intros H s. exists a, s. auto. Qed.
  Lemma silent_bind {A B} (m : M A) (k : A -> M B) (Q : A -> Prop) (R : B -> Prop) :
    silent m Q -> (forall a, Q a -> silent (k a) R) -> silent (bind m k) R.
  Proof.
    intros Hm Hk s. destruct (Hm s) as (a & s' & H1 & H2 & H3).
    destruct (Hk a H3 s') as (b & s'' & H4 & H5 & H6). exists b, s''.
    unfold bind. rewrite H1, H4. split; [reflexivity|]. split; [congruence|exact H6].
  Qed.
  Lemma silent_if b e : b = false -> silent (raise_if b e) (fun _ => True).
  Proof. intros ->. apply silent_ret. exact Logic.I. Qed.
  Lemma silent_orelse {A} (o : option A) a e : o = Some a -> silent (orelse o e) (fun x => x = a).
  Proof. intros ->. apply silent_ret. reflexivity. Qed.
  Lemma silent_draw {A} (f : RNG -> A * RNG) : silent (draw f) (fun _ => True).
  Proof.
    intros s. unfold draw. destruct (f (fst (rs s))) as [a r]. exists a. eexists; split; [reflexivity|]. auto.
  Qed.
  Lemma silent_replicateM {A} n (m : M A) Q : silent m Q -> silent (replicateM n m) (fun l => length l = n).
  Proof.
    intros H; induction n as [|n IH]; cbn.
    - apply silent_ret; reflexivity.
    - eapply silent_bind; [exact H|]. intros a _. eapply silent_bind; [exact IH|]. intros l Hl.
      apply silent_ret. cbn; auto.
  Qed.
  Lemma silent_seed o : silent (seed o) (fun _ => True).
  Proof. intros s. destruct o; cbn; eexists; eexists; split; try reflexivity; auto. Qed.

  Lemma silent_lhs p d lo hi : silent (lhs p d lo hi) (fun X => length X = p).
  Proof.
    unfold lhs. eapply silent_bind.
    { unfold rand_mat. apply (silent_replicateM _ _ (fun l => length l = d)).
      eapply silent_replicateM. apply silent_draw. }
    intros x _. cbn zeta. eapply silent_bind.
    { eapply silent_replicateM. apply silent_draw. }
    intros pr _. apply silent_ret. rewrite !map_length, seq_length. reflexivity.
  Qed.

  Lemma speaks_call_fun x s : speaks (call_fun x) s.
  Proof.
    unfold speaks, call_fun. destruct (e_fun x (rs s)) as [r w]. cbn.
    exists (EEval x r), []. split; [reflexivity|exact Logic.I].
  Qed.

  Lemma speaks_eval_pop m X s : ModeOK m -> X <> [] -> speaks (eval_pop m X) s.
  Proof.
    intros Hm HX. destruct X as [|x X]; [congruence|]. destruct m; cbn [eval_pop].
    - apply speaks_l; [|intro; apply disc_ret]. cbn.
      apply speaks_l; [apply speaks_call_fun|].
      intros; apply disc_bind; [apply disc_mapM; intros; apply disc_call_fun|intros; apply disc_ret].
    - apply speaks_l; [|intro; apply disc_ret]. unfold eval_joblib, get_sched, bind at 1.
      unfold speaks. cbn iota beta.
      pose proof (Hm (length (x :: X)) (rs s)) as Hp.
      destruct (e_sched (length (x :: X)) (rs s)) as [|i o].
      { apply Permutation_length in Hp. rewrite seq_length in Hp. discriminate. }
      cbn [foldM].
      match goal with |- context[bind ?m ?k s] =>
        pose proof (fun H2 => speaks_l m k s (speaks_l _ _ _ (speaks_call_fun _ s) (fun _ => disc_ret _)) H2) as HH end.
      apply HH. intros f. apply disc_foldM. intros; apply disc_bind; [apply disc_call_fun|intros; apply disc_ret].
    - unfold eval_mpi. apply speaks_l.
      + unfold speaks, mpi_bcast; cbn. eexists; eexists; split; [reflexivity|exact Logic.I].
      + intros X'. apply disc_bind.
        * apply disc_foldM. intros; apply disc_bind; [apply disc_call_fun|intros; apply disc_ret].
        * intros f. apply disc_bind; [apply disc_mpi_allreduce|intros; apply disc_ret].
  Qed.
End Valid.
