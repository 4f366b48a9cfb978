(** C13: the Neighborhood Algorithm stays in the box. *)
From Coq Require Import Reals Lra Permutation.
From Verif Require Import Base Num NumR NumE Env Common DE NA Hoare EvalRules Gen Steps Runs Inst Laws Safe Feas FeasPso.

(** ** Coordinates with lower == upper, in every arithmetic *)
Open Scope nat_scope.
Section Fixed.
  Context {N : Num} {E : Env N}.

  (** In a coordinate whose bounds do not satisfy 0 < upper - lower the point has the value upper. *)
  Definition Fixed (rows : @matrix (@num_arith N)) (x : @vec (@num_arith N)) : Prop :=
    length x <= length rows /\
    forall i, i < length x ->
      nltb n0 (nsub (nth 1 (nth i rows []) n0) (nth 0 (nth i rows []) n0)) = false ->
      nth i x n0 = nth 1 (nth i rows []) n0.

  Lemma unnormalize_fixed (rows : @matrix (@num_arith N)) (x : @vec (@num_arith N)) : Fixed rows (unnormalize (lows rows) (ups rows) x).
  Proof.
    unfold Fixed, unnormalize, lows, ups. split.
    - rewrite map3_length, !map_length. vlia.
    - intros i Hi. rewrite map3_length, !map_length in Hi. intros Hm.
      rewrite map3_nth with (a := n0) (b := (fun r : @vec (@num_arith N) => nth 0 r n0) []) (c := (fun r : @vec (@num_arith N) => nth 1 r n0) [])
        by (rewrite ?map_length; vlia).
      rewrite (map_nth (fun r : @vec (@num_arith N) => nth 0 r n0)), (map_nth (fun r : @vec (@num_arith N) => nth 1 r n0)), Hm. reflexivity.
  Qed.

  Context (HE : EnvOK).

  Lemma safe_na_mutation Pe Pc P Xall fit : safe Pe Pc (na_mutation P Xall fit) (fun _ => True).
  Proof.
    eapply safe_conseq; [|auto]. unfold na_mutation. apply (safe_mapM _ _ _ _ (fun _ _ => True)). intros i _.
    unfold na_one. eapply safe_bind.
    - apply (safe_foldM _ _ _ (fun _ => True)); [exact I|]. intros [[x d1] d2] j _ _. unfold na_axis.
      destruct (negb _); [apply safe_ret; exact I|]. unfold uniform1, uniform.
      eapply safe_bind; [|intros v _; destruct (_ <? _); apply safe_ret; exact I].
      eapply safe_bind; [apply safe_urange|]. intros _ _.
      eapply safe_bind; [apply (safe_draw _ _ _ (fun _ => True)); auto|]. intros; apply (safe_ret _ _ _ (fun _ => True)); exact I.
    - intros; apply safe_ret; exact I.
  Qed.

  Lemma safe_na_fixed A rows : a_bounds (naa A) = D2 2 rows ->
    (a_backend (naa A) = Some "mpi"%string -> BcastKeeps (Fixed rows)) ->
    safe (Fixed rows) (fun X st => Forall (Fixed rows) X /\ Fixed rows (cb_x st)) (na_minimize A)
      (fun r => Fixed rows (r_x r)).
  Proof.
    intros Hb HB. unfold na_minimize. cbv zeta.
    eapply safe_bind; [apply safe_check_pop|]. intros ? HA.
    eapply safe_bind; [apply (safe_raise_if _ _ _ _ (fun _ => True)); auto|]; intros _ _.
    eapply safe_bind; [apply safe_seed_and_cb|]; intros _ _.
    unfold na. eapply safe_bind; [apply (safe_eval_kindM _ _ HE _ _ _ (Fixed rows)), HB|]. intros mode [HM _].
    cbv zeta. eapply safe_bind; [apply safe_unpack|]. intros lu (rows' & Hr & ->).
    rewrite Hb in Hr. injection Hr as <-.
    eapply safe_bind; [apply (safe_orelse _ _ _ _ (fun _ => True)); auto|]. intros nr _.
    assert (HI : InitIs (naa A) rows (fun _ => True) (fun _ _ => True)).
    { unfold InitIs. destruct (a_x0 (naa A)); [apply Forall_forall; auto|]. split; [apply Forall_forall|]; intros; auto.
      intros ? ? ? ? ?; exact I. }
    eapply safe_bind; [apply (safe_init HE _ _ _ rows _ _ Hb HI HA)|]. intros X _.
    assert (Hun : forall X, Forall (Fixed rows) (map (unnormalize (lows rows) (ups rows)) X)).
    { intros Y. apply Forall_forall. intros y Hy. apply in_map_iff in Hy. destruct Hy as (z & <- & _). apply unnormalize_fixed. }
    assert (Hev : forall P Y Pc, na_mode P = mode -> na_lower P = lows rows -> na_upper P = ups rows ->
              safe (Fixed rows) Pc (na_eval P Y) (fun _ => True)).
    { intros P Y Pc E1 E2 E3. unfold na_eval. rewrite E1, E2, E3.
      eapply safe_bind; [apply (safe_eval_pop _ _ (Fixed rows)); auto|]. intros [? ?] _. apply safe_ret; exact I. }
    eapply safe_bind; [apply Hev; reflexivity|]. intros [? f] _.
    eapply safe_bind; [apply safe_np_argmin|]. intros gb _.
    eapply safe_bind; [apply safe_rec_alloc|]. intros nout _.
    eapply safe_bind; [apply safe_rec_write|]. intros r _.
    eapply safe_bind.
    { apply (safe_when _ _ _ _ (fun _ => True)); [|exact I]. intros _. apply safe_call_cb; [|exact I].
      split; [apply Hun|apply unnormalize_fixed]. }
    intros _ _. eapply safe_conseq.
    - apply (safe_drive _ _ (na_drv _) (fun _ => True)).
      + intros it s _. unfold na_drv, d_step, na_step.
        eapply safe_bind; [apply safe_na_mutation|]. intros Y _. eapply safe_bind.
        { unfold selection_sync. eapply safe_bind; [apply Hev; reflexivity|]. intros [c cf] _.
          eapply safe_bind; [apply safe_np_argmin|]. intros i _. apply (safe_ret _ _ _ (fun _ => True)); exact I. }
        intros sel _. eapply safe_bind; [apply safe_rec_write|]. intros r' _. apply safe_ret; exact I.
      + intros it s _. apply safe_ret; exact I.
      + intros it s _ _. split; [apply Hun|apply unnormalize_fixed].
      + exact I.
    - intros res (s1 & _ & -> & _). apply unnormalize_fixed.
  Qed.

  (** A coordinate with lower == upper is always evaluated at exactly that value: also for a
      population that starts elsewhere, with any arithmetic. *)
  Theorem C13_fixed_coordinates A rows w a0 r st' :
    a_bounds (naa A) = D2 2 rows ->
    (a_backend (naa A) = Some "mpi"%string -> BcastKeeps (Fixed rows)) ->
    exec (na_minimize A) w a0 = (r, st') ->
    (forall x, In x (points (tr st')) -> Fixed rows x) /\
    (forall X st, In (X, st) (cbs (tr st')) -> Forall (Fixed rows) X /\ Fixed rows (cb_x st)) /\
    (forall res, r = inl res -> Fixed rows (r_x res)).
  Proof.
    intros Hb HB Hx. exact (safe_exec _ _ _ _ _ _ _ _ (safe_na_fixed A rows Hb HB) Hx).
  Qed.
End Fixed.

Open Scope R_scope.

(** ** Exact arithmetic *)

(** A normalised coordinate. *)
Definition Nin (b : er * er) (v : er) : Prop :=
  match b with
  | (Fin l, Fin u) => l < u -> exists r, v = Fin r /\ 0 <= r <= 1
  | _ => False
  end.
Definition okb (b : er * er) : Prop := exists l u, b = (Fin l, Fin u) /\ l <= u.

Lemma np_max2_in a b : @np_max2 ENum a b = a \/ @np_max2 ENum a b = b.
Proof. unfold np_max2. destruct (nisnan a); [auto|]. destruct (nleb b a); auto. Qed.
Lemma np_min2_in a b : @np_min2 ENum a b = a \/ @np_min2 ENum a b = b.
Proof. unfold np_min2. destruct (nisnan a); [auto|]. destruct (nleb a b); auto. Qed.
Lemma fold_in (f : er -> er -> er) : (forall a b, f a b = a \/ f a b = b) ->
  forall l a, In (fold_left f l a) (a :: l).
Proof.
  intros Hf. induction l as [|b l IH]; intros a; cbn [fold_left]; [left; reflexivity|].
  destruct (IH (f a b)) as [H|H]; [|right; right; exact H].
  rewrite <- H. destruct (Hf a b) as [-> | ->]; [left|right; left]; reflexivity.
Qed.
Lemma vmax_in (l : list er) : l <> [] -> In (@vmax ENum l) l.
Proof. destruct l; [congruence|]. intros _. apply fold_in, np_max2_in. Qed.
Lemma vmin_in (l : list er) : l <> [] -> In (@vmin ENum l) l.
Proof. destruct l; [congruence|]. intros _. apply fold_in, np_min2_in. Qed.

Lemma zero_lit : @n0 EArith = Fin 0.
Proof. reflexivity. Qed.
Lemma one_lit : @n1 EArith = Fin 1.
Proof. reflexivity. Qed.

Lemma na_low_ok lim r : 0 <= r <= 1 -> exists a, @na_low ENum lim (Fin r) = Fin a /\ 0 <= a <= r.
Proof.
  intros Hr. unfold na_low. destruct (filter _ lim) as [|x l] eqn:Hf.
  - exists 0. split; [reflexivity|lra].
  - assert (Hi : In (@vmax ENum (x :: l)) (x :: l)) by (apply vmax_in; discriminate).
    rewrite <- Hf in Hi at 2. apply filter_In in Hi. destruct Hi as [_ Hi].
    destruct (@vmax ENum (x :: l)) as [m| | |]; cbn in Hi; try discriminate; unfold pymax; cbn.
    + rb. destruct (Rltb m 0) eqn:Hm; rb.
      * exists 0. split; [reflexivity|lra].
      * exists m. split; [reflexivity|lra].
    + exists 0. split; [reflexivity|lra].
Qed.

Lemma na_high_ok lim r : 0 <= r <= 1 -> exists a, @na_high ENum lim (Fin r) = Fin a /\ r <= a <= 1.
Proof.
  intros Hr. unfold na_high. destruct (filter _ lim) as [|x l] eqn:Hf.
  - exists 1. split; [reflexivity|lra].
  - assert (Hi : In (@vmin ENum (x :: l)) (x :: l)) by (apply vmin_in; discriminate).
    rewrite <- Hf in Hi at 2. apply filter_In in Hi. destruct Hi as [_ Hi].
    destruct (@vmin ENum (x :: l)) as [m| | |]; cbn in Hi; try discriminate; unfold pymin; cbn.
    + rb. destruct (Rltb 1 m) eqn:Hm; rb.
      * exists 1. split; [reflexivity|lra].
      * exists m. split; [reflexivity|lra].
    + exists 1. split; [reflexivity|lra].
Qed.

Section RunNa.
  Context {E : Env ENum}.
  Context (HE : EnvOK).
  Notation evec := (@vec (@num_arith ENum)).

  Section Rows.
    Context (lower upper : evec) (Hbox : Forall okb (combine lower upper)) (Hlen : length lower = length upper).
    Let bs := combine lower upper.
    Definition NBox (x : evec) : Prop := Forall2 Nin (combine lower upper) x.
    Definition CBox (x : evec) : Prop := Forall2 Cin (combine lower upper) x.

    Lemma Nin_C l u x : l <= u -> Nin (Fin l, Fin u) x ->
      Cin (Fin l, Fin u) (if er_ltb (Fin 0) (er_sub (Fin u) (Fin l))
                          then er_add (er_mul x (if er_ltb (Fin 0) (er_sub (Fin u) (Fin l)) then er_sub (Fin u) (Fin l) else Fin 1)) (Fin l)
                          else Fin u).
    Proof.
      intros Hlu H. cbn in H. cbn [er_sub er_ltb]. destruct (Rltb 0 (u - l)) eqn:Hc; rb.
      - destruct H as (r & -> & Hr); [lra|]. cbn. nra.
      - cbn. lra.
    Qed.
    Lemma Cin_N l u x : Cin (Fin l, Fin u) x ->
      Nin (Fin l, Fin u) (if er_ltb (Fin 0) (er_sub (Fin u) (Fin l))
                          then er_div (er_sub x (Fin l)) (if er_ltb (Fin 0) (er_sub (Fin u) (Fin l)) then er_sub (Fin u) (Fin l) else Fin 1)
                          else Fin u).
    Proof.
      intros H. cbn in H. destruct x as [x| | |]; try tauto. cbn [er_sub er_ltb].
      destruct (Rltb 0 (u - l)) eqn:Hc; rb; cbn [Nin]; intros Hlu; [|lra].
      cbn. destruct (Req_EM_T (u - l) 0); [lra|]. eexists. split; [reflexivity|]. split.
      - apply Rmult_le_pos; [lra|]. apply Rlt_le, Rinv_0_lt_compat. lra.
      - apply Rmult_le_reg_r with (u - l); [lra|]. unfold Rdiv. rewrite Rmult_assoc, Rinv_l by lra. lra.
    Qed.

    Lemma unnormalize_C x : NBox x -> CBox (unnormalize lower upper x).
    Proof.
      clear bs. unfold NBox, CBox, unnormalize. revert upper Hbox Hlen x.
      induction lower as [|l lo IH]; intros [|u up] Hb Hl x Hx; try discriminate.
      - cbn in Hx. inversion Hx; subst. constructor.
      - cbn in Hx, Hb. inversion Hx as [|b v bs0 x' Hv Hx']; subst.
        inversion Hb as [|? ? (l' & u' & Heq & Hlu) Hb']; subst. injection Heq as -> ->.
        cbn [map3 combine]. constructor; [|apply IH; auto; cbn in Hl; lia].
        apply (Nin_C l' u' v Hlu Hv).
    Qed.
    Lemma normalize_N x : CBox x -> NBox (normalize lower upper x).
    Proof.
      clear bs. unfold NBox, CBox, normalize. revert upper Hbox Hlen x.
      induction lower as [|l lo IH]; intros [|u up] Hb Hl x Hx; try discriminate.
      - cbn in Hx. inversion Hx; subst. constructor.
      - cbn in Hx, Hb. inversion Hx as [|b v bs0 x' Hv Hx']; subst.
        inversion Hb as [|? ? (l' & u' & Heq & Hlu) Hb']; subst. injection Heq as -> ->.
        cbn [map3 combine]. constructor; [|apply IH; auto; cbn in Hl; lia].
        apply (Cin_N l' u' v Hv).
    Qed.

    Lemma NBox_upd j v x : NBox x -> (forall b, nth_error (combine lower upper) j = Some b -> Nin b v) -> NBox (upd j v x).
    Proof.
      unfold NBox. clear. generalize (combine lower upper) as bs. intros bs H. revert j.
      induction H as [|b y bs x Hb H IH]; intros [|j] Hv; cbn; constructor; auto.
    Qed.
    Lemma NBox_nth j x : NBox x -> (j < length lower)%nat ->
      exists l u, nth_error (combine lower upper) j = Some (Fin l, Fin u) /\ l <= u /\
        nth j (span_mask lower upper) false = Rltb 0 (u - l) /\ Nin (Fin l, Fin u) (nth j x n0).
    Proof.
      clear bs. unfold NBox, span_mask. revert upper Hbox Hlen x j.
      induction lower as [|l lo IH]; intros [|u up] Hb Hl x j Hx Hj; try discriminate; [cbn in Hj; lia|].
      cbn in Hx, Hb. inversion Hx as [|b v bs0 x' Hv Hx']; subst.
      inversion Hb as [|? ? (l' & u' & Heq & Hlu) Hb']; subst. injection Heq as -> ->.
      destruct j as [|j].
      - exists l', u'. cbn. auto.
      - cbn in Hj, Hl. destruct (IH up Hb' ltac:(elia) x' j Hx' ltac:(elia)) as (a & c & A1 & A2 & A3 & A4).
        exists a, c. cbn. auto.
    Qed.

    Lemma safe_na_axis Pe Pc xk U (acc : evec * er * evec) j : NBox (fst (fst acc)) -> (j < length lower)%nat ->
      safe Pe Pc (na_axis (length lower) (span_mask lower upper) xk U acc j) (fun a => NBox (fst (fst a))).
    Proof.
      destruct acc as [[x d1] d2]. cbn [fst]. intros Hx Hj. unfold na_axis.
      destruct (NBox_nth j x Hx Hj) as (l & u & Hb & Hlu & Hm & Hn). rewrite Hm.
      destruct (Rltb 0 (u - l)) eqn:Hc; cbn [negb]; rb.
      - destruct Hn as (r & Hr & Hr1); [lra|]. cbv zeta. rewrite Hr.
        set (lim := na_lims _ _ _ _).
        destruct (na_low_ok lim r Hr1) as (a & Ea & Ha). destruct (na_high_ok lim r Hr1) as (c & Ec & Hc1).
        rewrite Ea, Ec. eapply safe_bind.
        { apply safe_uniform1; [exact HE|]. apply ENum_UniformLaw. lra. }
        intros v [Hv1 Hv2].
        assert (HNx : NBox (upd j v x)).
        { apply NBox_upd; [exact Hx|]. intros b Hb'. rewrite Hb in Hb'. injection Hb' as <-. intros _.
          destruct v as [v| | |]; cbn in Hv1, Hv2; try discriminate. rb. exists v. split; [reflexivity|lra]. }
        destruct (_ <? _)%nat; apply safe_ret; exact HNx.
      - apply safe_ret. cbn [fst]. apply NBox_upd; [exact Hx|]. intros b Hb'. rewrite Hb in Hb'. injection Hb' as <-.
        cbn [Nin]. intros; exfalso; lra.
    Qed.
  End Rows.

  Record NAOk (P : NAParams) : Prop := {
    no_lo : length (na_lower P) = na_d P; no_up : length (na_upper P) = na_d P;
    no_box : Forall okb (combine (na_lower P) (na_upper P)) }.
  Definition NB (P : NAParams) := NBox (na_lower P) (na_upper P).
  Definition CB (P : NAParams) := CBox (na_lower P) (na_upper P).

  Record NAInv (P : NAParams) (s : NAS) : Prop := {
    ni_X : Forall (NB P) (nas_X s);
    ni_b : Forall (NB P) (nas_pbest s); ni_bl : length (nas_pbest s) = na_p P;
    ni_fl : length (nas_pbestfit s) = na_p P;
    ni_g : NB P (nas_gbest s);
    ni_all : Forall (NB P) (nas_Xall s); ni_alll : length (nas_Xall s) = length (nas_Xallfit s);
    ni_ne : (0 < length (nas_Xall s))%nat }.

  Section Step.
    Context (P : NAParams) (HP : NAOk P) (HM : ModeKeeps (CB P) (na_mode P)).
    Context (Pc : matrix -> CbState -> Prop).

    Lemma un_ok X : Forall (NB P) X -> Forall (CB P) (map (unnormalize (na_lower P) (na_upper P)) X).
    Proof.
      intros H. apply Forall_forall. intros y Hy. apply in_map_iff in Hy. destruct Hy as (x & <- & Hx).
      rewrite Forall_forall in H. destruct HP as [H1 H2 H3]. apply unnormalize_C; [exact H3|elia|apply H, Hx].
    Qed.

    Lemma safe_na_mut Xall fit : Forall (NB P) Xall -> length Xall = length fit -> (0 < length Xall)%nat ->
      safe (CB P) Pc (na_mutation P Xall fit) (fun X => Forall (NB P) X /\ length X = na_p P).
    Proof.
      intros HX Hl H0. unfold na_mutation. cbv zeta. eapply safe_conseq.
      - apply (safe_mapM _ _ _ _ (fun _ x => NB P x)). intros i _. unfold na_one. cbv zeta.
        set (ix := firstn (na_nr P) (e_argsort fit)). set (k := nth (i mod na_nr P) ix 0%nat).
        assert (Hk : (k < length Xall)%nat).
        { unfold k. destruct (Nat.lt_ge_cases (i mod na_nr P) (length ix)) as [Hi|Hi].
          - assert (Hin : In (nth (i mod na_nr P) ix 0%nat) (e_argsort fit)).
            { rewrite <- (firstn_skipn (na_nr P) (e_argsort fit)). apply in_or_app. left. apply nth_In, Hi. }
            apply (Permutation_in _ (proj1 (eo_argsort HE) fit)), in_seq in Hin. rewrite Hl. elia.
          - rewrite nth_overflow by exact Hi. exact H0. }
        eapply safe_bind.
        + apply (safe_foldM _ _ _ (fun a : evec * er * evec => NB P (fst (fst a)))).
          * cbn [fst]. apply (Forall_nth_lt _ _ _ _ HX Hk).
          * intros acc j Hj Ha. apply in_seq in Hj. destruct HP as [H1 H2 H3].
            rewrite <- H1. apply safe_na_axis; [exact H3|elia|exact Ha|elia].
        + intros acc Ha. apply safe_ret. exact Ha.
      - intros X HF. split.
        + clear - HF. induction HF; constructor; auto.
        + apply Forall2_length in HF. rewrite seq_length in HF. symmetry. exact HF.
    Qed.

    Lemma safe_na_eval X : Forall (NB P) X ->
      safe (CB P) Pc (na_eval P X) (fun r => fst r = X /\ length (snd r) = length X).
    Proof.
      intros HX. unfold na_eval. eapply safe_bind.
      - apply (safe_eval_pop _ _ (CB P) _ _ HM); [auto|]. apply un_ok, HX.
      - intros [? f] (_ & _ & H & _). apply safe_ret. rewrite map_length in H. auto.
    Qed.

    Lemma safe_na_step it s : NAInv P s -> safe (CB P) Pc (na_step P it s) (fun r => NAInv P (fst r)).
    Proof.
      intros [H1 H2 H3 H4 H5 H6 H7 H8]. unfold na_step.
      eapply safe_bind; [apply safe_na_mut; auto|]. intros X [HX HXl].
      eapply safe_bind.
      { unfold selection_sync. eapply safe_bind; [apply safe_na_eval, HX|].
        intros [U f] [HU HF]. cbn [fst snd] in *. subst U.
        eapply safe_bind; [apply safe_np_argmin|]. intros i [_ Hne].
        apply (safe_ret _ _ _ (fun sel : SelSync => Forall (NB P) (ss_x sel) /\ length (ss_x sel) = na_p P /\
            length (ss_xfun sel) = na_p P /\ NB P (ss_best sel) /\ length (ss_candfun sel) = length X)). cbn.
        assert (HS : Forall (NB P) (sel_x X f (nas_pbest s) (nas_pbestfit s))) by (apply sel_x_Forall; auto).
        assert (HSL : length (sel_x X f (nas_pbest s) (nas_pbestfit s)) = na_p P).
        { rewrite sel_x_length. elia. }
        assert (HFL : length (sel_fun f (nas_pbestfit s)) = na_p P).
        { unfold sel_fun. rewrite map2_length. elia. }
        split; [exact HS|]. split; [exact HSL|]. split; [exact HFL|]. split; [|exact HF].
        apply (Forall_nth_lt _ _ _ _ HS). rewrite HSL, <- HFL. apply argmin_lt, Hne. }
      intros sel (S1 & S2 & S3 & S4 & S5). cbv zeta.
      eapply safe_bind; [apply safe_rec_write|]. intros r _. apply safe_ret.
      constructor; cbn [fst nas_X nas_pbest nas_gbest nas_pbestfit nas_Xall nas_Xallfit]; auto.
      - apply Forall_app. auto.
      - rewrite !app_length. elia.
      - rewrite app_length. elia.
    Qed.
  End Step.

  Lemma safe_na_run A rows : a_bounds (naa A) = D2 2 rows -> FiniteBox rows ->
    (a_backend (naa A) = Some "mpi"%string -> BcastKeeps (FBox rows)) ->
    (forall x, a_x0 (naa A) = Some x -> Forall (FBox rows) (nd_rows x)) ->
    safe (FBox rows) (fun X st => Forall (FBox rows) X /\ FBox rows (cb_x st))
      (na_minimize A) (fun r => FBox rows (r_x r)).
  Proof.
    intros Hb HF HB HX0.
    set (InC := (fun x : evec => Forall2 Cin (combine (lows rows) (ups rows)) x)).
    assert (HIC : forall x, InC x -> FBox rows x) by (intros x Hx; apply FBox_iff; assumption).
    assert (HCI : forall x, FBox rows x -> InC x) by (intros x Hx; apply FBox_iff; assumption).
    assert (HBC : a_backend (naa A) = Some "mpi"%string -> BcastKeeps InC).
    { intros Hm. apply (BcastKeeps_iff (FBox rows)); [|auto]. intros x; split; auto. }
    assert (Hok : Forall okb (combine (lows rows) (ups rows))) by (apply FiniteBox_combine, HF).
    assert (Hll : length (lows rows) = length (ups rows)) by (unfold lows, ups; rewrite !map_length; reflexivity).
    cut (safe InC (fun X st => Forall (FBox rows) X /\ FBox rows (cb_x st)) (na_minimize A) (fun r => FBox rows (r_x r))).
    { intros H s. destruct (H s) as (e & He & H1 & H2). exists e. split; [exact He|]. split; [|exact H2].
      eapply Forall_impl; [|exact H1]. intros [] Hev; cbn in *; auto. }
    unfold na_minimize. cbv zeta.
    eapply safe_bind; [apply safe_check_pop|]. intros ? HA. cbv beta in HA.
    eapply safe_bind; [apply (safe_raise_if _ _ _ _ (fun _ => True)); auto|]; intros _ _.
    eapply safe_bind; [apply safe_seed_and_cb|]; intros _ _.
    unfold na. eapply safe_bind; [apply (safe_eval_kindM _ _ HE _ _ _ InC), HBC|]. intros mode [HM _].
    cbv zeta. eapply safe_bind; [apply safe_unpack|]. intros lu (rows' & Hr & ->).
    rewrite Hb in Hr. injection Hr as <-.
    eapply safe_bind; [apply (safe_orelse _ _ _ _ (fun _ => True)); auto|]. intros nr _.
    pose proof (pao_pop _ HA) as Hp.
    assert (HI : InitIs (naa A) rows InC Cin).
    { unfold InitIs. destruct (a_x0 (naa A)) as [x|] eqn:Hx.
      - specialize (HX0 x eq_refl). eapply Forall_impl; [|exact HX0]. exact HCI.
      - split; [|auto]. eapply Forall_impl; [|exact HF]. intros r (l & u & -> & Hlu). cbn.
        apply ENum_LhsLaw; [lia|exact Hlu]. }
    eapply safe_bind; [apply (safe_init HE _ _ _ rows InC Cin Hb HI HA)|]. intros X [HX1 HX2].
    set (XN := map (normalize (lows rows) (ups rows)) X).
    assert (HXN : Forall (NBox (lows rows) (ups rows)) XN).
    { apply Forall_forall. intros y Hy. apply in_map_iff in Hy. destruct Hy as (x & <- & Hx).
      rewrite Forall_forall in HX2. apply normalize_N; auto. apply HX2, Hx. }
    assert (HXNl : length XN = Z.to_nat (a_popsize (naa A))) by (unfold XN; rewrite map_length; exact HX1).
    clearbody XN.
    set (P0 := mkNAParams _ _ _ _ _ _ _ _ _ _).
    assert (HP0 : NAOk P0).
    { constructor; cbn; rewrite ?Hb; auto; apply map_length. }
    eapply safe_bind; [apply (safe_na_eval P0 HP0 HM _ XN HXN)|]. intros [X0 f] [G1 G3]. cbn [fst snd] in G1, G3. subst X0.
    cbn [fst snd] in *.
    eapply safe_bind; [apply safe_np_argmin|]. intros gb [-> Hne].
    assert (Hg : NBox (lows rows) (ups rows) (nth (argmin f) XN [])).
    { apply (Forall_nth_lt _ _ _ _ HXN). rewrite <- G3. apply argmin_lt, Hne. }
    eapply safe_bind; [apply safe_rec_alloc|]. intros nout _.
    eapply safe_bind; [apply safe_rec_write|]. intros r _.
    set (P := mkNAParams _ _ _ _ _ _ _ _ _ nout). set (s := mkNAS _ _ _ _ _ _ _ _ _).
    assert (HP : NAOk P).
    { constructor; cbn; rewrite ?Hb; auto; apply map_length. }
    assert (HIv : NAInv P s).
    { constructor; cbn; auto; elia. }
    assert (Hcb : forall s1, NAInv P s1 ->
       Forall (FBox rows) (map (unnormalize (lows rows) (ups rows)) (nas_X s1)) /\
       FBox rows (unnormalize (lows rows) (ups rows) (nas_gbest s1))).
    { intros s1 HI1. split.
      - eapply Forall_impl; [|apply (un_ok P HP), (ni_X _ _ HI1)]. exact HIC.
      - apply HIC. apply unnormalize_C; auto. apply (ni_g _ _ HI1). }
    eapply safe_bind.
    { apply (safe_when _ _ _ _ (fun _ => True)); [|exact I]. intros _. apply safe_call_cb; [|exact I].
      apply (Hcb s HIv). }
    intros _ _. eapply safe_conseq.
    - apply (safe_drive _ _ (na_drv P) (NAInv P)).
      + intros it s1 HI1. apply safe_na_step; auto.
      + intros it s1 HI1. apply safe_ret, HI1.
      + intros it s1 HI1 _. apply (Hcb s1 HI1).
      + exact HIv.
    - intros res (s1 & HI1 & -> & _). apply (Hcb s1 HI1).
  Qed.

  (** ** C13 *)
  Theorem C13_na A rows w a0 r st' :
    a_bounds (naa A) = D2 2 rows -> FiniteBox rows ->
    (a_backend (naa A) = Some "mpi"%string -> BcastKeeps (FBox rows)) ->
    (forall x, a_x0 (naa A) = Some x -> Forall (FBox rows) (nd_rows x)) ->
    exec (na_minimize A) w a0 = (r, st') ->
    (forall x, In x (points (tr st')) -> FBox rows x) /\
    (forall X st, In (X, st) (cbs (tr st')) -> Forall (FBox rows) X /\ FBox rows (cb_x st)) /\
    (forall res, r = inl res -> FBox rows (r_x res)).
  Proof.
    intros Hb HF HB HX0 Hx. exact (safe_exec _ _ _ _ _ _ _ _ (safe_na_run A rows Hb HF HB HX0) Hx).
  Qed.
End RunNa.
