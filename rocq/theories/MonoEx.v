(** C60 in exact arithmetic and in binary64, and runs that meet its hypotheses. *)
From Coq Require Import Reals Lra Floats.
From Verif Require Import Base Num NumR NumE NumF Env Common DE CPSO NA Mat CMAES VDCMA Rel Hoare EvalRules Gen
  Steps Hist Runs Best Inst HistFacts HistBest PropPop Mono Demo ExPop.
Open Scope nat_scope.

(** ** Exact arithmetic: every strictly increasing function of the reals *)
Definition lift (h : R -> R) (x : er) : er := match x with Fin r => Fin (h r) | _ => x end.

Theorem C60_increasing (h : R -> R) :
  (forall x y, (x < y)%R -> (h x < h y)%R) -> @Increasing ENum (lift h) (fun _ => True).
Proof.
  intro H.
  assert (Hlt : forall x y, (h x < h y)%R <-> (x < y)%R).
  { intros x y. split; [|apply H]. intro Hh. destruct (Rlt_dec x y) as [|Hn]; [assumption|].
    apply Rnot_lt_le in Hn. destruct Hn as [Hn|Hn]; [specialize (H _ _ Hn); lra | subst; lra]. }
  constructor.
  - intros [x| | |] [y| | |] _ _; cbn; try reflexivity.
    unfold Rltb. destruct (Rlt_dec (h x) (h y)), (Rlt_dec x y); try reflexivity; rewrite Hlt in *; tauto.
  - intros [x| | |] [y| | |] _ _; cbn; try reflexivity.
    unfold Rleb. destruct (Rle_dec (h x) (h y)) as [a|a], (Rle_dec x y) as [b|b]; try reflexivity; exfalso.
    + apply Rnot_le_lt in b. apply H in b. lra.
    + apply Rnot_le_lt in a. apply (Hlt y x) in a. lra.
  - intros [x| | |] _; cbn; try reflexivity. unfold nisnan. cbn.
    unfold Reqb. destruct (Req_EM_T (h x) (h x)), (Req_EM_T x x); congruence.
Qed.

(** ** The sorting contract is met by an insertion sort *)
Lemma d_insert_order (u v : list float) (l : list nat) i :
  (forall a b, In a (i :: l) -> In b (i :: l) ->
     PrimFloat.leb (nth a u 0%float) (nth b u 0%float) = PrimFloat.leb (nth a v 0%float) (nth b v 0%float)) ->
  d_insert u i l = d_insert v i l.
Proof.
  induction l as [|j l IH]; intro H; cbn; [reflexivity|].
  rewrite (H i j) by (cbn; auto). rewrite IH; [reflexivity|].
  intros a b Ha Hb. apply H; cbn in *; tauto.
Qed.
Lemma d_isort_order (u v : list float) (l : list nat) :
  (forall a b, In a l -> In b l ->
     PrimFloat.leb (nth a u 0%float) (nth b u 0%float) = PrimFloat.leb (nth a v 0%float) (nth b v 0%float)) ->
  d_isort u l = d_isort v l.
Proof.
  induction l as [|i l IH]; intro H; cbn; [reflexivity|].
  rewrite IH by (intros; apply H; cbn; auto). apply d_insert_order.
  intros a b Ha Hb. apply H.
  - destruct Ha as [Ha|Ha]; [left; exact Ha | right; eapply Permutation_in; [apply d_isort_perm | exact Ha]].
  - destruct Hb as [Hb|Hb]; [left; exact Hb | right; eapply Permutation_in; [apply d_isort_perm | exact Hb]].
Qed.
Theorem DemoEnv_OrderOnly F f : @OrderOnly (FNum F) (DemoEnv F f).
Proof.
  intros u v Hl H _. change (d_argsort u = d_argsort v). unfold d_argsort. unfold vec in *.
  assert (Hl' : @length float u = @length float v) by exact Hl. rewrite <- Hl'. apply d_isort_order.
  intros a b Ha Hb. apply in_seq in Ha, Hb. destruct (H a b) as [_ Hle]; [apply Ha|apply Hb|]. exact Hle.
Qed.

(** ** Binary64: an objective with four levels *)
Definition f_levels (x : list float) : float + nat :=
  inl (match f_sphere x with
       | inl s => if PrimFloat.ltb s 0.125 then 1 else if PrimFloat.ltb s 0.375 then 2
                  else if PrimFloat.ltb s 1 then 4 else 8
       | inr _ => 8
       end)%float.
Definition levels : list float := [1; 2; 4; 8; 0.5; @nlit (FArith DF) 1 30]%float.
Definition Level (y : float) : Prop := In y levels.
Definition g_sq (y : float) : float :=
  if PrimFloat.ltb y 1e20 then PrimFloat.sub (PrimFloat.mul y y) 3 else y.
Definition EL : Env (FNum DF) := DemoEnv DF f_levels.
Definition ELg : Env (FNum DF) := @transformed (FNum DF) g_sq EL (fun _ _ w => (None, w)).

Lemma levels_increasing : @Increasing (FNum DF) g_sq Level.
Proof.
  constructor.
  - intros x y Hx Hy.
    assert (H : forallb (fun x => forallb (fun y => Bool.eqb (PrimFloat.ltb (g_sq x) (g_sq y)) (PrimFloat.ltb x y))
                                    levels) levels = true) by (vm_compute; reflexivity).
    rewrite forallb_forall in H. specialize (H x Hx). rewrite forallb_forall in H.
    specialize (H y Hy). apply Bool.eqb_prop in H. exact H.
  - intros x y Hx Hy.
    assert (H : forallb (fun x => forallb (fun y => Bool.eqb (PrimFloat.leb (g_sq x) (g_sq y)) (PrimFloat.leb x y))
                                    levels) levels = true) by (vm_compute; reflexivity).
    rewrite forallb_forall in H. specialize (H x Hx). rewrite forallb_forall in H.
    specialize (H y Hy). apply Bool.eqb_prop in H. exact H.
  - intros x Hx.
    assert (H : forallb (fun x => Bool.eqb (@nisnan (FArith DF) (g_sq x)) (@nisnan (FArith DF) x)) levels = true)
      by (vm_compute; reflexivity).
    rewrite forallb_forall in H. specialize (H x Hx). apply Bool.eqb_prop in H. exact H.
Qed.
Lemma levels_values : @ValuesIn (FNum DF) EL Level.
Proof.
  intros x w. unfold EL. cbn [e_fun DemoEnv fst]. unfold f_levels, Level, levels.
  destruct (f_sphere x) as [s|s]; [|right; right; right; left; reflexivity].
  destruct (PrimFloat.ltb s 0.125); [left; reflexivity|].
  destruct (PrimFloat.ltb s 0.375); [right; left; reflexivity|].
  destruct (PrimFloat.ltb s 1); [right; right; left; reflexivity | right; right; right; left; reflexivity].
Qed.

(** *** Runs of de, cpso and na *)
Definition de_levels : @DEArgs (FNum DF) :=
  @mkDEArgs (FNum DF)
    (demo_args DF (Some (@D2 (FArith DF) 2 [[0.5; 0.5]; [0.75; -0.5]; [-1; 1]; [0.25; 0.75]]%float)) 4 4 (-1)%float 0.5%float
       (Some "Random"%string) true 1%float) 0.5%float 0.5%float "rand1bin" "immediate".
Definition cpso_levels : @CPSOArgs (FNum DF) :=
  @mkCPSOArgs (FNum DF)
    (demo_args DF (Some (@D2 (FArith DF) 2 [[0.5; 0.5]; [0.75; -0.5]; [-1; 1]]%float)) 4 3 (-1)%float 0.5%float
       (Some "Shrink"%string) true 1%float)
    0.75%float 4%float 4%float (Some 1%float) "deferred".
Definition na_levels : @NAArgs (FNum DF) :=
  @mkNAArgs (FNum DF)
    (demo_args DF (Some (@D2 (FArith DF) 2 [[0.5; 0.5]; [0.75; -0.5]; [-1; 1]; [0.25; 0.75]]%float)) 4 4 (-1)%float 0.5%float
       None true 1%float) 0.5%float.


Definition de_levels_g : @DEArgs (FNum DF) :=
  @mkDEArgs (FNum DF) (@with_ftol (FNum DF) (g_sq 0.5%float) (dea de_levels)) 0.5%float 0.5%float "rand1bin" "immediate".
Definition cpso_levels_g : @CPSOArgs (FNum DF) :=
  @mkCPSOArgs (FNum DF) (@with_ftol (FNum DF) (g_sq 0.5%float) (pa cpso_levels))
    0.75%float 4%float 4%float (Some 1%float) "deferred".
Definition na_levels_g : @NAArgs (FNum DF) :=
  @mkNAArgs (FNum DF) (@with_ftol (FNum DF) (g_sq 0.5%float) (naa na_levels)) 0.5%float.

(** The run [m] returns after [n] iterations with value [y], and [m'] does the same with the
    transformed values. *)
Definition Both (m : @M (FNum DF) EL (@OptRes (FNum DF))) (m' : @M (FNum DF) ELg (@OptRes (FNum DF)))
    (n : Z) (y : float) : Prop :=
  exists r s s',
    @exec (FNum DF) EL _ m w0 None = (inl r, s) /\
    @exec (FNum DF) ELg _ m' w0 None = (inl (@onresult (FNum DF) g_sq r), s') /\
    r_nit r = n /\ PrimFloat.eqb (r_fun r) y = true /\
    @tr (FNum DF) ELg s' = map (@onevent (FNum DF) g_sq) (@tr (FNum DF) EL s).

Lemma both (m : @M (FNum DF) EL (@OptRes (FNum DF))) (m' : @M (FNum DF) ELg (@OptRes (FNum DF))) n (y : float) :
  match @exec (FNum DF) EL _ m w0 None with
  | (inl r, _) => Z.eqb (r_nit r) n && PrimFloat.eqb (r_fun r) y
  | _ => false end = true ->
  @SameRun (FNum DF) EL g_sq (fun _ _ w => (None, w)) m m' ->
  Both m m' n y.
Proof.
  intros H HS. specialize (HS w0 None). unfold Both, ELg.
  destruct (@exec (FNum DF) EL _ m w0 None) as [[r|e] s]; [|discriminate].
  rewrite andb_true_iff, Z.eqb_eq in H. destruct H as [H1 H2].
  match type of HS with (let (_, _) := ?q in _) => destruct q as [r' s'] eqn:He end.
  destruct HS as (_ & _ & HT & ->). exists r, s, s'. split; [reflexivity|]. split; [reflexivity|].
  auto.
Qed.

(** Improving runs of de, cpso (with restarts possible) and na, and their transforms: the
    hypotheses of C60_de, C60_cpso and C60_na hold. *)
Theorem C60_runs :
  Both (@de_minimize (FNum DF) EL de_levels) (@de_minimize (FNum DF) ELg de_levels_g) 4 1%float /\
  Both (@cpso_minimize (FNum DF) EL cpso_levels) (@cpso_minimize (FNum DF) ELg cpso_levels_g) 4 4%float /\
  Both (@na_minimize (FNum DF) EL na_levels) (@na_minimize (FNum DF) ELg na_levels_g) 4 2%float.
Proof.
  assert (H05 : Level 0.5%float) by (cbn; tauto).
  split; [|split].
  - apply both; [vm_compute; reflexivity|].
    apply (@C60_de (FNum DF) EL g_sq Level levels_increasing levels_values (fun _ _ w => (None, w)) (fun _ _ _ => eq_refl) (DemoEnv_OK DF f_levels)
             de_levels); [discriminate | exact H05].
  - apply both; [vm_compute; reflexivity|].
    apply (@C60_cpso (FNum DF) EL g_sq Level levels_increasing levels_values (fun _ _ w => (None, w)) (fun _ _ _ => eq_refl) (DemoEnv_OK DF f_levels)
             (DemoEnv_OrderOnly DF f_levels) cpso_levels); [discriminate | exact H05|].
    right. split; [vm_compute; reflexivity|]. do 5 right. left. reflexivity.
  - apply both; [vm_compute; reflexivity|].
    apply (@C60_na (FNum DF) EL g_sq Level levels_increasing levels_values (fun _ _ w => (None, w)) (fun _ _ _ => eq_refl) (DemoEnv_OK DF f_levels)
             (DemoEnv_OrderOnly DF f_levels) na_levels); [discriminate | exact H05].
Qed.

(** *** cmaes and vdcma: the stopping tests look at the sizes of the values *)
Definition g_small (y : float) : float := PrimFloat.mul y 0x1p-70.
Definition ELs : Env (FNum DF) := @transformed (FNum DF) g_small EL (fun _ _ w => (None, w)).
Lemma small_increasing : @Increasing (FNum DF) g_small Level.
Proof.
  constructor.
  - intros x y Hx Hy.
    assert (H : forallb (fun x => forallb (fun y => Bool.eqb (PrimFloat.ltb (g_small x) (g_small y)) (PrimFloat.ltb x y))
                                    levels) levels = true) by (vm_compute; reflexivity).
    rewrite forallb_forall in H. specialize (H x Hx). rewrite forallb_forall in H.
    specialize (H y Hy). apply Bool.eqb_prop in H. exact H.
  - intros x y Hx Hy.
    assert (H : forallb (fun x => forallb (fun y => Bool.eqb (PrimFloat.leb (g_small x) (g_small y)) (PrimFloat.leb x y))
                                    levels) levels = true) by (vm_compute; reflexivity).
    rewrite forallb_forall in H. specialize (H x Hx). rewrite forallb_forall in H.
    specialize (H y Hy). apply Bool.eqb_prop in H. exact H.
  - intros x Hx.
    assert (H : forallb (fun x => Bool.eqb (@nisnan (FArith DF) (g_small x)) (@nisnan (FArith DF) x)) levels = true)
      by (vm_compute; reflexivity).
    rewrite forallb_forall in H. specialize (H x Hx). apply Bool.eqb_prop in H. exact H.
Qed.

Definition cma_levels (mx : Z) : @CMAArgs (FNum DF) :=
  @mkCMAArgs (FNum DF)
    (@mkArgs (FNum DF) true (b11 DF) (Some (@D1 (FArith DF) [0.5; 0.75]%float)) true mx 4 None (-1)%float (-1)%float
             None 1 None true 1%float CbFun)
    0.5%float 0.5%float.
Definition w_levels : Script * unit :=
  (mkScript [] [0; 1; -0.5; 0.25; 1; 0.5; -1; -1; 1; 0; -0.25; 0.5; 0.5; 1; -1; -0.5; 1; 0.5; 0; -1; 0.25; 1; -0.5; 0;
                0; 1; -0.5; 0.25; 1; 0.5; -1; -1; 1; 0; -0.25; 0.5; 0.5; 1; -1; -0.5; 1; 0.5; 0; -1; 0.25; 1; -0.5; 0]%float [] [], tt).
Definition cma_or_vd (E : Env (FNum DF)) (vd : bool) (A : @CMAArgs (FNum DF)) : @M (FNum DF) E (@OptRes (FNum DF)) :=
  if vd then @vdcma_minimize (FNum DF) E A else @cmaes_minimize (FNum DF) E A.

(** The hypotheses of C60_cmaes and C60_vdcma hold for these calls. *)
Theorem C60_cma_hypotheses vd mx :
  @SameUntilStop (FNum DF) EL g_small (fun _ _ w => (None, w))
    (cma_or_vd EL vd (cma_levels mx)) (cma_or_vd ELs vd (cma_levels mx)).
Proof.
  destruct vd; cbn [cma_or_vd].
  - apply (@C60_vdcma (FNum DF) EL g_small Level small_increasing levels_values
             (fun _ _ w => (None, w)) (fun _ _ _ => eq_refl) (DemoEnv_OK DF f_levels)
             (DemoEnv_OrderOnly DF f_levels) (cma_levels mx) (-1)%float); [discriminate | reflexivity].
  - apply (@C60_cmaes (FNum DF) EL g_small Level small_increasing levels_values
             (fun _ _ w => (None, w)) (fun _ _ _ => eq_refl) (DemoEnv_OK DF f_levels)
             (DemoEnv_OrderOnly DF f_levels) (cma_levels mx) (-1)%float); [discriminate | reflexivity].
Qed.

(** The original run uses up its five iterations; the transformed one goes the same way and stops
    after three, because its values are within 1e-12 of each other. *)
Theorem C60_cma_stops_earlier vd :
  exists r s r' s',
    @exec (FNum DF) EL _ (cma_or_vd EL vd (cma_levels 5)) w_levels None = (inl r, s) /\
    @exec (FNum DF) ELs _ (cma_or_vd ELs vd (cma_levels 5)) w_levels None = (inl r', s') /\
    r_nit r = 5%Z /\ r_status r = (-1)%Z /\ r_nit r' = 3%Z /\ r_status r' = (-7)%Z /\
    exists rest, map (@onevent (FNum DF) g_small) (@tr (FNum DF) EL s) = @tr (FNum DF) ELs s' ++ rest.
Proof.
  pose proof (C60_cma_hypotheses vd 5 w_levels None) as H.
  assert (HQ : match @exec (FNum DF) EL _ (cma_or_vd EL vd (cma_levels 5)) w_levels None with
               | (inl r, s) => Z.eqb (r_nit r) 5 && Z.eqb (r_status r) (-1) &&
                               Nat.leb 20 (length (@tr (FNum DF) EL s))
               | _ => false end = true) by (destruct vd; vm_compute; reflexivity).
  assert (HQ' : match @exec (FNum DF) ELs _ (cma_or_vd ELs vd (cma_levels 5)) w_levels None with
               | (inl r, s) => Z.eqb (r_nit r) 3 && Z.eqb (r_status r) (-7) &&
                               Nat.ltb (length (@tr (FNum DF) ELs s)) 20
               | _ => false end = true) by (destruct vd; vm_compute; reflexivity).
  unfold ELs in *.
  destruct (@exec (FNum DF) EL _ (cma_or_vd EL vd (cma_levels 5)) w_levels None) as [[r|e] s]; [|discriminate].
  match type of H with (let (_, _) := ?q in _) => destruct q as [[r'|e'] s'] end; [|discriminate].
  exists r, s, r', s'. rewrite !andb_true_iff, !Z.eqb_eq, ?Nat.leb_le, ?Nat.ltb_lt in *.
  repeat split; try tauto. destruct H as [(rest & [H|H]) _]; [|eauto].
  apply (f_equal (@length _)) in H. rewrite app_length, map_length in H. lia.
Qed.
