(** The Neighborhood Algorithm as an exploration: every generation is drawn from all models
    evaluated so far (for every arithmetic; used by Cells.v). *)
From Coq Require Import Permutation.
From Verif Require Import Base Num Env Common DE NA Hoare EvalRules Gen Steps Runs Inst.

Section Explore.
  Context {N : Num} {E : Env N}.

  Definition anyx : Exn -> St -> Prop := fun _ _ => True.

  (** The main loop, for invariants that need no count of the iterations. *)
  Lemma drive_any {S} (d : Drv S) (cb : bool) (I : S -> St -> Prop) :
    (forall it s st, I s st -> wp (d_step d it s) (fun sc st' => I (fst sc) st') anyx st) ->
    (forall it s w w' t b, I s (mkSt w t b) ->
        I s (mkSt w' (t ++ [ECb (d_pop d s) (cb_state d it s) None]) b)) ->
    (forall it s st, I s st -> wp (d_post d it s) (fun s' st' => I s' st') anyx st) ->
    forall fl it s st, I s st ->
      wp (drive d cb fl it s) (fun _ st' => exists s', I s' st') anyx st.
  Proof.
    intros Hstep Hcb Hpost. induction fl as [|fl IH]; intros it s st Hi; [exact Logic.I|].
    cbn [drive]. apply wp_bind. eapply wp_post; [apply (Hstep _ s st Hi)|].
    intros [s' c] st' HI. cbn [fst] in HI. apply wp_bind.
    assert (HK : forall st'', I s' st'' ->
      wp match c with
         | Some c0 => result d (it + 1) s' c0
         | None => s0 <- d_post d (it + 1) s';; drive d cb fl (it + 1) s0
         end (fun _ st' => exists s', I s' st') anyx st'').
    { intros st'' HI'. destruct c as [c|].
      - unfold result. destruct (message c); cbn [orelse].
        + apply wp_bind, wp_ret, wp_ret. exists s'; exact HI'.
        + apply wp_bind, wp_raise. exact Logic.I.
      - apply wp_bind. eapply wp_post; [apply (Hpost _ _ _ HI')|]. intros s2 st2 Hi2. apply IH, Hi2. }
    apply wp_when; intros _.
    - destruct st' as [w t b]. apply wp_call_cb; [|intros; exact Logic.I].
      intros w' _. apply HK. apply (Hcb _ _ w), HI.
    - apply HK, HI.
  Qed.

  (** [Explored]: how the list of all models [Xall], their values [fit] and the evaluations [t]
      in the order they were made grow.  [R] relates a new generation to the models before it. *)
  Inductive Explored (p : nat) (view : vec -> vec) (R : matrix -> vec -> matrix -> Prop) :
      matrix -> vec -> list (vec * T) -> Prop :=
  | Explored_init X f l :
      length X = p -> length f = p -> Permutation l (combine (map view X) f) ->
      Explored p view R X f l
  | Explored_step Xall fit t X f l :
      Explored p view R Xall fit t -> length X = p -> length f = p ->
      R Xall fit X -> Permutation l (combine (map view X) f) ->
      Explored p view R (X ++ Xall) (f ++ fit) (t ++ l).

  Section Run.
    Context (A : NAArgs) (C : vec -> Prop) (R : NAParams -> matrix -> vec -> matrix -> Prop).
    Let a := naa A.
    Context (HM : forall mode, eval_kind true (a_workers a) (a_backend a) = inl mode ->
                  ModeOK mode /\ mode <> Mpi).
    Context (HG : forall P, NAParamsOf A P -> forall Xall fit,
      length fit = length Xall -> na_p P <= length Xall -> Forall C Xall ->
      quiet (na_mutation P Xall fit) (fun X => length X = na_p P /\ Forall C X /\ R P Xall fit X)).
    Context (Hx0 : forall rows, a_bounds a = D2 2 rows -> PopArgsOK a ->
      quiet (match a_x0 a with
             | Some x => ret (nd_rows x)
             | None => lhs (Z.to_nat (a_popsize a)) (nd_len (a_bounds a))
                           (map (fun r => nth 0 r n0) rows) (map (fun r => nth 1 r n0) rows)
             end)
            (fun X => length X = Z.to_nat (a_popsize a) /\
               Forall (fun r => C (normalize (map (fun r => nth 0 r n0) rows) (map (fun r => nth 1 r n0) rows) r)) X)).

    Definition na_exp (P : NAParams) (s : NAS) (st : St) : Prop :=
      Explored (na_p P) (unnormalize (na_lower P) (na_upper P)) (R P) (nas_Xall s) (nas_Xallfit s) (evals (tr st)) /\
      length (nas_Xallfit s) = length (nas_Xall s) /\ na_p P <= length (nas_Xall s) /\
      Forall C (nas_Xall s) /\ length (nas_pbest s) = na_p P /\ length (nas_pbestfit s) = na_p P.

    Lemma na_eval_exp P X s (Q : matrix * vec -> St -> Prop) :
      ModeOK (na_mode P) -> na_mode P <> Mpi ->
      (forall f s' l, length f = length X -> evals (tr s') = evals (tr s) ++ l ->
         Permutation l (combine (map (unnormalize (na_lower P) (na_upper P)) X) f) -> Q (X, f) s') ->
      wp (na_eval P X) Q anyx s.
    Proof.
      intros H1 H2 H. unfold na_eval. apply wp_bind. apply wp_eval_pop; [exact H1| |intros; exact I].
      intros X' f s' evs Hl _ Ht _ _ _ HE' _. apply wp_ret. rewrite map_length in Hl.
      destruct (HE' H2) as (-> & l & -> & Hp & _). apply (H f s' l); auto.
      rewrite Ht, evals_app, evals_ok. reflexivity.
    Qed.

    Lemma na_step_exp P it s st : NAParamsOf A P -> na_exp P s st ->
      wp (na_step P it s) (fun r st' => na_exp P (fst r) st') anyx st.
    Proof.
      intros HP (HX & Hl & Hp & HC & Hb & Hbf). unfold na_step.
      destruct (HM _ (npo_mode _ _ HP)) as [Hm Hm']. apply wp_bind.
      eapply wp_conseq; [apply (HG P HP _ _ Hl Hp HC)| |intros; exact I].
      cbn beta. intros X s1 (Ht1 & _ & HlX & HCX & HR). apply wp_bind. unfold selection_sync.
      apply wp_bind, na_eval_exp; auto. intros f s2 l Hf Ht2 Hpm.
      apply wp_bind. eapply wp_conseq; [apply (wp_np_argmin _ (fun _ st => st = s2))| |intros; exact I].
      { reflexivity. }
      intros i s3 ->. apply wp_ret. apply wp_bind.
      eapply wp_conseq; [apply (wp_rec_write _ _ _ _ _ _ _ (fun _ st => st = s2))| |intros; exact I].
      { reflexivity. }
      intros r' s3 ->. apply wp_ret. unfold na_exp. cbn.
      rewrite HlX in Hf. split.
      - rewrite Ht2, Ht1. apply Explored_step; auto.
      - rewrite !app_length, Hf, HlX, Hl. repeat split; try lia.
        + apply Forall_app; auto.
        + rewrite sel_x_length with (p := na_p P); auto.
        + rewrite sel_fun_length with (p := na_p P); auto.
    Qed.

    Lemma wp_weak {B} (m : M B) Q s : wp m Q NF s -> wp m Q anyx s.
    Proof. intros H. eapply wp_conseq; [exact H|auto|intros; exact I]. Qed.

    Lemma na_explores (w : RNG * US) (a0 : option matrix) :
      wp (na_minimize A) (fun (res : OptRes) (st' : St) => exists (P : NAParams) (Xall : matrix) (fit : vec), (NAParamsOf A P /\ outside_open (nZ 0) (naa_nrperc A) (nZ 1) = false) /\
            (Explored (na_p P) (unnormalize (na_lower P) (na_upper P)) (R P) Xall fit (evals (tr st')) /\
            (Forall C Xall /\ length fit = length Xall)))
         anyx (mkSt w [] a0).
    Proof.
      unfold na_minimize. fold a.
      apply wp_bind, wp_weak, wp_check_pop. intros Hargs.
      apply wp_bind, wp_weak, wp_raise_if; [discriminate|]. intros Hnrp.
      apply wp_bind, wp_weak, wp_seed_and_cb. intros w1 _. cbn [tr argbuf].
      unfold na, eval_kindM.
      case_eq (eval_kind true (a_workers a) (a_backend a)); [intros mode Hmode|intros e _; apply wp_bind, wp_raise; exact I].
      destruct (HM mode Hmode) as [Hm1 Hm2].
      apply wp_bind, wp_ret. apply wp_bind, wp_weak, wp_unpack_bounds. intros lower upper rows Hb Hlo Hup.
      pose proof (Hx0 rows Hb Hargs) as HX0. rewrite <- Hlo, <- Hup in HX0.
      cbn zeta.
      destruct (ntrunc (nmul (naa_nrperc A) (nZ (a_popsize a)))) as [nr|] eqn:Hnr; cbn [orelse].
      2: { apply wp_bind, wp_raise; exact I. }
      apply wp_bind, wp_ret.
      set (p := Z.to_nat (a_popsize a)) in *.
      set (d := nd_len (a_bounds a)) in *.
      assert (Hpz : Z.of_nat p = a_popsize a) by (unfold p; pose proof (pao_pop a Hargs); lia).
      assert (Hp2 : 2 <= p) by (pose proof (pao_pop a Hargs); lia).
      apply wp_bind. eapply wp_conseq; [apply HX0| |intros; exact I]. cbn beta.
      intros X0 s1 (Ht1 & _ & HX1 & HX2). cbn [tr] in Ht1.
      set (X := map (normalize lower upper) X0) in *.
      assert (HX : length X = p) by (unfold X; rewrite map_length; exact HX1).
      assert (HCX : Forall C X) by (apply Forall_map; exact HX2).
      set (P0 := mkNAParams _ _ _ _ _ _ _ _ _ None).
      apply wp_bind, na_eval_exp; [exact Hm1|exact Hm2|]. intros f s2 l Hf Ht2 Hpm.
      apply wp_bind, wp_weak, wp_np_argmin. intros Hfne.
      apply wp_bind, wp_weak, wp_rec_alloc. intros nout Hn0 Hn1.
      apply wp_bind, wp_weak, wp_rec_write. intros r0 Hr0.
      set (P := mkNAParams _ _ _ _ _ _ _ _ _ nout).
      assert (HP : NAParamsOf A P).
      { constructor; cbn; auto.
        - exists nr; auto.
        - exists rows; auto. }
      set (s := mkNAS X _ _ _ _ _ _ _ _).
      assert (Hin : forall st, evals (tr st) = evals (tr s2) -> na_exp P s st).
      { intros st Hst. unfold na_exp, s. cbn. rewrite Hst, Ht2, Ht1. cbn. rewrite Hf, HX.
        split; [apply Explored_init; auto; congruence|]. repeat split; auto. }
      assert (Hloop : forall st, na_exp P s st ->
        wp (drive (na_drv P) (has_cb a) (fuel (a_maxiter a)) 1 s)
           (fun (res : OptRes) (st' : St) => exists (P : NAParams) (Xall : matrix) (fit : vec), (NAParamsOf A P /\ outside_open (nZ 0) (naa_nrperc A) (nZ 1) = false) /\
            (Explored (na_p P) (unnormalize (na_lower P) (na_upper P)) (R P) Xall fit (evals (tr st')) /\
            (Forall C Xall /\ length fit = length Xall))) anyx st).
      { intros st Hi. eapply wp_post; [apply (drive_any (na_drv P) (has_cb a) (na_exp P))|].
        - intros it sx stx HI. apply (na_step_exp P it sx stx HP HI).
        - intros it sx wx wx' t b. unfold na_exp. cbn [tr]. rewrite evals_app. cbn. rewrite app_nil_r. auto.
        - intros it sx stx HI. apply wp_ret, HI.
        - exact Hi.
        - intros res st' (s' & H1 & H2 & H3 & H4 & _). exists P, (nas_Xall s'), (nas_Xallfit s'). auto. }
      apply wp_bind, wp_when; intros Hcbv.
      - destruct s2 as [w3 t3 b3]. apply wp_call_cb; [|intros; exact I].
        intros w4 _. apply Hloop, Hin. cbn. rewrite evals_app. cbn. apply app_nil_r.
      - apply Hloop, Hin. reflexivity.
    Qed.
  End Run.
End Explore.
