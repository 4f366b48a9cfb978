(** C77 on the two number systems, and runs that meet its hypotheses. *)
From Coq Require Import Reals Lra Floats Permutation.
From Verif Require Import Base Num NumR NumE NumF Env Common DE CPSO Mat CMAES VDCMA Hoare EvalRules Gen Steps Inst Safe Feas DimCma
  FeasPso VdReal VdRun CmaRun PropCma Demo ExPop Wall WallEx PenNan.

Lemma notnum {N : Num} (x : @T (@num_arith N)) : NotNum x <-> ~ @isnum (@num_arith N) x.
Proof. unfold NotNum, isnum. destruct (nleb x x); intuition congruence. Qed.

#[export] Instance ENan : @NanArith ENum.
Proof.
  constructor; intros x y.
  - unfold NotNum. destruct x, y; cbn; try discriminate; auto. unfold Rleb. destruct (Rle_dec r r); [discriminate|lra].
  - rewrite !notnum. apply (@wl_sub_l ENum EWall).
  - rewrite !notnum. apply (@wl_add_l ENum EWall).
  - rewrite !notnum. apply (@wl_add_r ENum EWall).
  - rewrite !notnum. apply (@wl_mul_l ENum EWall).
  - rewrite !notnum. apply (@wl_mul_r ENum EWall).
  - rewrite !notnum. apply (@wl_div_l ENum EWall).
Qed.
#[export] Instance FNan F : @NanArith (FNum F).
Proof.
  constructor; intros x y.
  - unfold NotNum. cbn. rewrite f_leb_key, f_eqb_key.
    destruct (sfkey (Prim2SF x)) as [a|]; [|reflexivity].
    destruct (lexcmp_spec a a) as [[-> _]|[[-> _]|[_ Hl]]]; try discriminate. destruct a as [[a1 a2] a3]. lia.
  - rewrite !notnum. apply (@wl_sub_l (FNum F) (FWall F)).
  - rewrite !notnum. apply (@wl_add_l (FNum F) (FWall F)).
  - rewrite !notnum. apply (@wl_add_r (FNum F) (FWall F)).
  - rewrite !notnum. apply (@wl_mul_l (FNum F) (FWall F)).
  - rewrite !notnum. apply (@wl_mul_r (FNum F) (FWall F)).
  - rewrite !notnum. apply (@wl_div_l (FNum F) (FWall F)).
Qed.

(** In exact arithmetic the list of spreads holds twenty entries or more. *)
Lemma exact_window (d p : nat) : 1 <= p -> forall i, i < 20 ->
  nltb (@nN EArith i) (nadd (@nZ EArith 20) (ndiv (nmul (@nZ EArith 3) (@nN EArith d)) (@nN EArith p))) = true.
Proof.
  intros Hp i Hi. rewrite !nN_E. unfold nZ. cbn [nadd nmul ndiv nlit EArith er_mul nltb]. rewrite !Rlit_0.
  apply le_INR in Hp. change (INR 1) with 1%R in Hp.
  assert (Hi' : (INR i < 20)%R) by (rewrite INR_IZR_INZ; apply IZR_lt; lia).
  rewrite div_fin by lra. cbn. apply Rltb_true. pose proof (pos_INR d).
  assert (0 <= 3 * INR d / INR p)%R by (apply Rmult_le_pos; [lra|left; apply Rinv_0_lt_compat; lra]).
  lra.
Qed.

(** The objective returns NaN in its second call; np.percentile and np.median of an array with a NaN are NaN. *)
Definition isnan (x : float) : bool := negb (PrimFloat.leb x x).
Definition NanEnv : Env (FNum DF) :=
  @mkEnv (FNum DF) Script nat
     (fun _ => noscript)
     d_rand d_randn d_perm d_randint
     (fun x w => (inl (if (snd w =? 1)%nat then nan else fold_left (fun a b => PrimFloat.add a (PrimFloat.mul b b)) x 0%float),
                  (fst w, S (snd w))))
     (fun _ _ w => (None, w)) (fun _ _ w => (None, w))
     (fun n _ => rev (seq 0 n))
     0 1 (fun _ X => X) (fun _ _ f => f)
     d_argsort
     (fun v q => if existsb isnan v then nan else d_percentile v q)
     (fun v => if existsb isnan v then nan else d_median v) d_eigh (fun n => repeat nan n).

Lemma nan_ok : @EnvOK (FNum DF) NanEnv.
Proof. destruct (DemoEnv_OK DF (fun _ => inl 0%float)) as [H1 H2 H3 H4 H5 H6]. constructor; [|exact H2|exact H3|exact H4|exact H5|exact H6]. intros n w. cbn. symmetry. apply Permutation_rev. Qed.
Lemma nan_quantiles : @NanQuantiles (FNum DF) NanEnv.
Proof.
  assert (H : forall v : list float, Exists (@NotNum (FNum DF)) v -> existsb isnan v = true).
  { intros v Hv. apply existsb_exists. apply Exists_exists in Hv. destruct Hv as (x & Hx & Hn). exists x. split; [exact Hx|].
    unfold isnan. apply negb_true_iff. exact Hn. }
  split; intros v; [intros q Hv|intros Hv]; cbn; rewrite (H v Hv); reflexivity.
Qed.
Lemma nan_eigh : @EighRows (FNum DF) NanEnv.
Proof. intros C D B H. cbn in H. unfold d_eigh in H. injection H as _ <-. rewrite map_length, seq_length. reflexivity. Qed.

Definition nan_args (mx : Z) : @CMAArgs (FNum DF) :=
  @mkCMAArgs (FNum DF)
    (@mkArgs (FNum DF) true (b11 DF) (Some (@D1 (FArith DF) [2; 0.25]%float)) true mx 4 None (-1)%float (-1)%float
             (Some "Penalize"%string) 1 None true 1%float CbFun)
    0.5%float 0.5%float.
Definition w_nan : Script * nat :=
  (mkScript [] [0; 1; -0.5; 0.25; 1; 0.5; -1; -1; 1; 0; -0.25; 0.5; 0.5; 1; -1; -0.5; 1; 0.5; 0; -1; 0.25; 1; -0.5; 0;
                0; 1; -0.5; 0.25; 1; 0.5; -1; -1; 1; 0; -0.25; 0.5; 0.5; 1; -1; -0.5; 1; 0.5; 0; -1; 0.25; 1; -0.5; 0]%float [] [], O).


(** a NaN value among the evaluations made between two worlds; a mean outside the box *)
Definition sees (w w' : @St (FNum DF) NanEnv) : bool :=
  existsb (fun xy => isnan (snd xy)) (evals (skipn (length (tr w)) (tr w'))).
Definition outside (xmean : list float) : bool := existsb (fun x => (PrimFloat.ltb x (-1) || PrimFloat.ltb 1 x)%float) xmean.
Lemma outside_mean xmean : outside xmean = true -> @OutMean (FNum DF) xmean.
Proof.
  unfold outside, OutMean. rewrite existsb_exists, Exists_exists. intros (x & Hx & Ho). exists x. split; [exact Hx|].
  apply orb_true_iff. exact Ho.
Qed.
Lemma sees_nan (w w' : @St (FNum DF) NanEnv) evs : tr w' = tr w ++ evs -> sees w w' = true -> @NanSeen (FNum DF) NanEnv w w'.
Proof.
  intros Ht Hs. unfold sees in Hs. rewrite Ht in Hs. rewrite skipn_app, Nat.sub_diag, skipn_all in Hs. cbn [skipn app] in Hs.
  apply existsb_exists in Hs. destruct Hs as ([x y] & Hin & Hn). exists evs, x, y. split; [exact Ht|]. split; [exact Hin|].
  unfold isnan in Hn. apply negb_true_iff in Hn. exact Hn.
Qed.
Lemma nan_window i : i < 20 -> nltb (@nN (FArith DF) i) (nadd (@nZ (FArith DF) 20) (ndiv (nmul (@nZ (FArith DF) 3) (@nN (FArith DF) 2)) (@nN (FArith DF) 4))) = true.
Proof. intros Hi. do 20 (destruct i as [|i]; [vm_compute; reflexivity|]). lia. Qed.

Definition start_w : @St (FNum DF) NanEnv := @mkSt (FNum DF) NanEnv w_nan [] None.

Lemma inl_split {A W} (r : (A + Exn) * W) (b : A -> W -> bool) :
  match r with (inl a, w) => b a w | _ => false end = true -> exists a w, r = (inl a, w) /\ b a w = true.
Proof. destruct r as [[a|e] w]; [|discriminate]. intros H. exists a, w. split; [reflexivity|exact H]. Qed.
Definition five {S} (xm : S -> list float) (L : list (@Lap (FNum DF) NanEnv S)) : bool :=
  match L with [g; u; _; _; _] => sees (l_before g) (l_after g) && outside (xm (l_state u)) | _ => false end.
Lemma five_inv {S} (xm : S -> list float) s0 (L : list (@Lap (FNum DF) NanEnv S)) : five xm L = true ->
  exists g, nth_error L 0 = Some g /\ sees (l_before g) (l_after g) = true /\
    (forall s, state_at s0 L 2 s -> @OutMean (FNum DF) (xm s)) /\ length L = 5.
Proof.
  unfold five. destruct L as [|g [|u [|? [|? [|? [|]]]]]]; try discriminate. intros H. apply andb_true_iff in H. destruct H as [H1 H2].
  exists g. split; [reflexivity|]. split; [exact H1|]. split; [|reflexivity].
  intros s (g' & Hg' & ->). injection Hg' as <-. apply outside_mean, H2.
Qed.
Definition end_ok (r : @OptRes (FNum DF)) (s : @St (FNum DF) NanEnv) : bool :=
  Z.eqb (r_nit r) 5 && isnan (r_fun r) && Nat.eqb (length (filter (fun xy => isnan (snd xy)) (evals (tr s)))) 1
         && Nat.eqb (length (evals (tr s))) 20.

(** The hypotheses of C77 hold of a run of five generations with NaN in the second evaluation: the objective returned numbers in
    the nineteen other evaluations, and the run returned NaN. *)
Theorem C77_hypotheses_cmaes : exists P s0 w0 g res st',
  @cma_begin (FNum DF) NanEnv (nan_args 5) start_w = (inl (P, s0), w0) /\
  (let L := course (@cma_drv (FNum DF) NanEnv P) true (fuel 5) 0 s0 w0 in
   nth_error L 0 = Some g /\ NanSeen (l_before g) (l_after g) /\
   (forall s, state_at s0 L 2 s -> @OutMean (FNum DF) (cs_xmean s)) /\
   (forall m s, 2 < m -> m < 3 -> state_at s0 L (m - 1) s -> ~ @OutMean (FNum DF) (cs_xmean s)) /\ length L = 5) /\
  @exec (FNum DF) NanEnv _ (@cmaes_minimize (FNum DF) NanEnv (nan_args 5)) w_nan None = (inl res, st') /\
  r_nit res = 5%Z /\ @NotNum (FNum DF) (r_fun res) /\
  length (filter (fun xy => isnan (snd xy)) (evals (tr st'))) = 1 /\ length (evals (tr st')) = 20.
Proof.
  destruct (inl_split (@cma_begin (FNum DF) NanEnv (nan_args 5) start_w)
    (fun Ps w0 => five (@cs_xmean (FNum DF)) (course (@cma_drv (FNum DF) NanEnv (fst Ps)) true (fuel 5) 0 (snd Ps) w0)) ltac:(vm_compute; reflexivity))
    as ([P s0] & w0 & HB & HQ).
  destruct (inl_split (@exec (FNum DF) NanEnv _ (@cmaes_minimize (FNum DF) NanEnv (nan_args 5)) w_nan None) end_ok ltac:(vm_compute; reflexivity))
    as (res & st' & HR & Hend).
  cbn [fst snd] in HQ. destruct (five_inv (@cs_xmean (FNum DF)) s0 _ HQ) as (g & Hg & Hs & Ho & Hl).
  destruct (course_step (@cma_drv (FNum DF) NanEnv P) true (fun _ _ _ => eq_refl) (fuel 5) 0 s0 w0 0 g Hg) as (sp & c & _ & He).
  destruct (wp_elim _ _ _ _ _ _ (@cma_step_spec (FNum DF) NanEnv P (EnvOK_mode nan_ok _) _ sp _) He) as (evs & _ & _ & Ht & _).
  exists P, s0, w0, g, res, st'. split; [exact HB|]. split; [|split; [exact HR|]].
  - cbv zeta. split; [exact Hg|]. split; [exact (sees_nan _ _ _ Ht Hs)|]. split; [exact Ho|]. split; [intros m s H1 H2; lia|exact Hl].
  - unfold end_ok in Hend. rewrite !andb_true_iff, !Nat.eqb_eq, Z.eqb_eq in Hend. destruct Hend as [[[H1 H2] H3] H4].
    split; [exact H1|]. split; [|split; assumption]. unfold isnan in H2. apply negb_true_iff in H2. exact H2.
Qed.
Theorem C77_hypotheses_vdcma : exists P s0 w0 g res st',
  @vd_begin (FNum DF) NanEnv (nan_args 5) start_w = (inl (P, s0), w0) /\
  (let L := course (@vd_drv (FNum DF) NanEnv P) true (fuel 5) 0 s0 w0 in
   nth_error L 0 = Some g /\ NanSeen (l_before g) (l_after g) /\
   (forall s, state_at s0 L 2 s -> @OutMean (FNum DF) (vs_xmean s)) /\
   (forall m s, 2 < m -> m < 3 -> state_at s0 L (m - 1) s -> ~ @OutMean (FNum DF) (vs_xmean s)) /\ length L = 5) /\
  @exec (FNum DF) NanEnv _ (@vdcma_minimize (FNum DF) NanEnv (nan_args 5)) w_nan None = (inl res, st') /\
  r_nit res = 5%Z /\ @NotNum (FNum DF) (r_fun res) /\
  length (filter (fun xy => isnan (snd xy)) (evals (tr st'))) = 1 /\ length (evals (tr st')) = 20.
Proof.
  destruct (inl_split (@vd_begin (FNum DF) NanEnv (nan_args 5) start_w)
    (fun Ps w0 => five (@vs_xmean (FNum DF)) (course (@vd_drv (FNum DF) NanEnv (fst Ps)) true (fuel 5) 0 (snd Ps) w0)) ltac:(vm_compute; reflexivity))
    as ([P s0] & w0 & HB & HQ).
  destruct (inl_split (@exec (FNum DF) NanEnv _ (@vdcma_minimize (FNum DF) NanEnv (nan_args 5)) w_nan None) end_ok ltac:(vm_compute; reflexivity))
    as (res & st' & HR & Hend).
  cbn [fst snd] in HQ. destruct (five_inv (@vs_xmean (FNum DF)) s0 _ HQ) as (g & Hg & Hs & Ho & Hl).
  destruct (course_step (@vd_drv (FNum DF) NanEnv P) true (fun _ _ _ => eq_refl) (fuel 5) 0 s0 w0 0 g Hg) as (sp & c & _ & He).
  destruct (wp_elim _ _ _ _ _ _ (@vd_step_spec (FNum DF) NanEnv P (EnvOK_mode nan_ok _) _ sp _) He) as (evs & _ & _ & Ht & _).
  exists P, s0, w0, g, res, st'. split; [exact HB|]. split; [|split; [exact HR|]].
  - cbv zeta. split; [exact Hg|]. split; [exact (sees_nan _ _ _ Ht Hs)|]. split; [exact Ho|]. split; [intros m s H1 H2; lia|exact Hl].
  - unfold end_ok in Hend. rewrite !andb_true_iff, !Nat.eqb_eq, Z.eqb_eq in Hend. destruct Hend as [[[H1 H2] H3] H4].
    split; [exact H1|]. split; [|split; assumption]. unfold isnan in H2. apply negb_true_iff in H2. exact H2.
Qed.

(** The theorem applies to these runs. *)
Theorem C77_applies res st' :
  @exec (FNum DF) NanEnv _ (@cmaes_minimize (FNum DF) NanEnv (nan_args 5)) w_nan None = (inl res, st') ->
  forall X st, In (X, st) (cbs (tr st')) -> (3 <= cb_nit st)%Z -> @NotNum (FNum DF) (cb_fun st).
Proof.
  intros Hx. destruct C77_hypotheses_cmaes as (P & s0 & w0 & g & r & s & HB & (Hg & Hs & Ho & Hi & _) & _).
  destruct (@C77_cmaes (FNum DF) NanEnv (FNan DF) nan_quantiles nan_ok nan_eigh (nan_args 5) [[-1; 1]; [-1; 1]]%float
    eq_refl ltac:(cbn; lia) eq_refl ltac:(discriminate) nan_window w_nan None P s0 w0 1 3 g HB (le_n 1) Hg Hs
    ltac:(lia) ltac:(lia) ltac:(lia) Ho Hi) as [_ H].
  exact (proj2 (H res st' Hx)).
Qed.
