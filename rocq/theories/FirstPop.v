(** The first popsize points that a population method evaluates: the rows of x0, or a Latin
    Hypercube sample.  Every execution, also those that raise. *)
From Coq Require Import Permutation.
From Verif Require Import Base Num Env Common DE CPSO NA Hoare EvalRules Gen Steps Hist Runs Best Inst
  Disc Valid Laws Safe Feas HistFacts PropPop.

Section FirstPop.
  Context {N : Num} {E : Env N}.

  (** [l] starts with (or, if the run broke off, is an initial part of) [Y]. *)
  Definition Opens (Y l : list vec) : Prop := exists Z, Y = firstn (length Y) l ++ Z.

  Lemma Opens_full (Y l r : list vec) : Y = l -> Opens Y (l ++ r).
  Proof. intros ->. exists []. rewrite firstn_app, Nat.sub_diag, firstn_all. cbn. rewrite !app_nil_r. reflexivity. Qed.
  Lemma Opens_part (Y l Z : list vec) : Y = l ++ Z -> Opens Y l.
  Proof. intros ->. exists Z. rewrite firstn_all2; [reflexivity|]. rewrite app_length. lia. Qed.

  (** The evaluation of a population calls the objective once per row, unless a call fails. *)
  Definition PopPoints {A} (m : M A) (Y : list vec) : Prop :=
    forall s, exists evs, tr (snd (m s)) = tr s ++ evs /\
      exists Z, Y = points evs ++ Z /\ (forall a, fst (m s) = inl a -> Z = []).

  Lemma pp_call_fun x : PopPoints (call_fun x) [x].
  Proof.
    intros s. unfold call_fun. destruct (e_fun x (rs s)) as [r w]; cbn.
    exists [EEval x r]. split; [reflexivity|]. exists []. auto.
  Qed.
  Lemma pp_nil {A} (m : M A) (Y : list vec) :
    (forall s, tr (snd (m s)) = tr s) -> Y = [] -> PopPoints m Y.
  Proof.
    intros H -> s. exists []. rewrite app_nil_r. split; [apply H|]. exists []. auto.
  Qed.
  Lemma pp_bind {A B} (m : M A) (k : A -> M B) Y Y' :
    PopPoints m Y -> (forall a, PopPoints (k a) Y') -> PopPoints (bind m k) (Y ++ Y').
  Proof.
    intros Hm Hk s. unfold bind. destruct (Hm s) as (e1 & H1 & Z1 & HZ1 & HR1).
    destruct (m s) as [[a|x] s1]; cbn in *.
    - destruct (Hk a s1) as (e2 & H2 & Z2 & HZ2 & HR2). exists (e1 ++ e2).
      rewrite H2, H1, app_assoc. split; [reflexivity|].
      exists Z2. rewrite (HR1 a eq_refl), app_nil_r in HZ1. rewrite HZ1, HZ2, points_app, app_assoc. auto.
    - exists e1. split; [exact H1|]. exists (Z1 ++ Y'). rewrite HZ1, app_assoc. split; [reflexivity|discriminate].
  Qed.
  Lemma pp_ret {A} (a : A) : PopPoints (ret a) [].
  Proof. apply pp_nil; [reflexivity|reflexivity]. Qed.
  Lemma pp_mapM X : PopPoints (mapM call_fun X) X.
  Proof.
    induction X as [|x X IH]; [apply pp_ret|]. change (x :: X) with ([x] ++ X) at 2.
    cbn [mapM]. apply pp_bind; [apply pp_call_fun|]. intros y. rewrite <- (app_nil_r X) at 2.
    apply pp_bind; [exact IH|]. intros; apply pp_ret.
  Qed.
  Lemma pp_foldM X order : forall f : vec,
    PopPoints (foldM (fun f i => y <- call_fun (nth i X []) ;; ret (upd i y f)) f order)
              (map (fun i => nth i X []) order).
  Proof.
    induction order as [|i l IH]; intros f; [apply pp_ret|]. cbn [foldM map].
    change (nth i X [] :: map (fun i => nth i X []) l) with ([nth i X []] ++ map (fun i => nth i X []) l).
    apply pp_bind; [|exact IH]. rewrite <- (app_nil_r [nth i X []]).
    apply pp_bind; [apply pp_call_fun|]. intros; apply pp_ret.
  Qed.

  (** The order of the calls: any, the one of the rows if evaluation is serial. *)
  Definition Order (m : Mode) (X Y : list vec) : Prop := Permutation X Y /\ (m = Serial -> Y = X).

  Lemma eval_points m X : ModeOK m -> m <> Mpi ->
    forall s, exists Y evs, Order m X Y /\ tr (snd (eval_pop m X s)) = tr s ++ evs /\
      exists Z, Y = points evs ++ Z /\ (forall a, fst (eval_pop m X s) = inl a -> Z = []).
  Proof.
    intros HM Hm s. destruct m; [| |congruence].
    - exists X. destruct (pp_bind (eval_serial X) (fun f => ret (X, f)) X [] (pp_mapM X) (fun f => pp_ret _) s)
        as (evs & H1 & Z & HZ & HR). exists evs. rewrite app_nil_r in HZ. split; [split; auto|]. split; [exact H1|eauto].
    - cbn [eval_pop]. unfold eval_joblib, bind at 2, get_sched. cbn.
      set (order := e_sched (length X) (rs s)).
      exists (map (fun i => nth i X []) order).
      destruct (pp_bind (foldM (fun f i => y <- call_fun (nth i X []) ;; ret (upd i y f))
                               (repeat n0 (length X)) order) (fun f => ret (X, f)) _ []
                        (pp_foldM X order _) (fun f => pp_ret _) s) as (evs & H1 & Z & HZ & HR).
      exists evs. rewrite app_nil_r in HZ. split; [split; [|discriminate]|].
      + symmetry. apply Permutation_map_nth. apply HM.
      + unfold bind in H1, HR. unfold bind. split; [exact H1|exists Z; split; [exact HZ|exact HR]].
  Qed.

  (** [V]: what is known of the first points. *)
  Definition begins {A} (V : list vec -> Prop) (m : M A) : Prop :=
    forall s, exists evs, tr (snd (m s)) = tr s ++ evs /\
      (points evs = [] \/ exists Y, V Y /\ Opens Y (points evs)).

  Definition still {A} (m : M A) (Q : A -> Prop) : Prop := safe (fun _ => False) (fun _ _ => False) m Q.

  Lemma still_points evs : Forall (shown (fun _ => False) (fun _ _ => False)) evs -> points evs = [].
  Proof. induction 1 as [|[] l He _ IH]; cbn in *; try tauto. Qed.

  Lemma begins_pre {A B} V (m : M A) (k : A -> M B) Q :
    still m Q -> (forall a, Q a -> begins V (k a)) -> begins V (bind m k).
  Proof.
    intros Hm Hk s. unfold bind. destruct (Hm s) as (e1 & H1 & HS & HQ).
    destruct (m s) as [[a|x] s1]; cbn in *.
    - destruct (Hk a (HQ a eq_refl) s1) as (e2 & H2 & HV). exists (e1 ++ e2).
      rewrite H2, H1, app_assoc. split; [reflexivity|]. rewrite points_app, (still_points _ HS). exact HV.
    - exists e1. split; [exact H1|]. left. apply still_points, HS.
  Qed.

  Lemma begins_eval {B} (V : list vec -> Prop) mode X (k : matrix * vec -> M B) :
    ModeOK mode -> mode <> Mpi -> (forall Y, Order mode X Y -> V Y) -> (forall a, disc (k a)) ->
    begins V (bind (eval_pop mode X) k).
  Proof.
    intros HM Hm HV Hk s. destruct (eval_points mode X HM Hm s) as (Y & evs & HO & Ht & Z & HZ & HR).
    unfold bind. destruct (eval_pop mode X s) as [[a|x] s1]; cbn in *.
    - destruct (Hk a s1) as (e2 & H2 & _). exists (evs ++ e2). rewrite H2, Ht, app_assoc.
      split; [reflexivity|]. right. exists Y. split; [apply HV, HO|].
      rewrite points_app. apply Opens_full. rewrite HZ, (HR a eq_refl). apply app_nil_r.
    - exists evs. split; [exact Ht|]. right. exists Y. split; [apply HV, HO|]. eapply Opens_part, HZ.
  Qed.

  Lemma begins_exec {A} V (m : M A) w a0 r st' :
    begins V m -> exec m w a0 = (r, st') ->
    points (tr st') = [] \/ exists Y, V Y /\ Opens Y (points (tr st')).
  Proof.
    intros H Hx. destruct (H (mkSt w [] a0)) as (e & He & HV). unfold exec in Hx. rewrite Hx in He.
    cbn in He. rewrite He. exact HV.
  Qed.

  (** ** Latin Hypercube: coordinate [i] of individual [k] is a point of the stratum that the
      [i]-th permutation assigns to [k]. *)
  Definition Sampled (p : nat) (lower upper : vec) (X : matrix) : Prop :=
    length X = p /\ Forall (fun x : vec => length x = length lower) X /\
    forall i, i < length lower -> exists pi, Permutation pi (seq 0 p) /\
      forall k, k < p -> exists v, nleb n0 v = true /\ nltb v n1 = true /\
        nth i (nth k X []) n0 = lhs_point p (nth k pi 0) v (nth i lower n0) (nth i upper n0).

  Lemma still_lhs (HE : EnvOK) p d lower upper :
    length lower = d -> length upper = d -> still (lhs p d lower upper) (Sampled p lower upper).
  Proof.
    intros Hl Hu. unfold still, lhs. eapply safe_bind; [apply safe_rand_mat, HE|]. intros x0 [Hx0 HF].
    eapply safe_bind.
    { apply (safe_replicateM _ _ d (perm p) (fun pi => Permutation pi (seq 0 p))). apply safe_draw. intros r. apply (eo_perm HE). }
    intros perms [Hp HP]. apply safe_ret.
    set (x1 := map2 (fun row k => map (fun v => nadd (ndiv v (nN p)) (lin p k)) row) x0 (seq 0 p)).
    assert (Hlen : forall k, length (map2 (fun pi j => nth j (nth (nth k pi 0) x1 []) n0) perms (seq 0 d)) = d).
    { intros k. rewrite map2_length, seq_length, Hp. vlia. }
    split; [rewrite !map_length, seq_length; reflexivity|]. split.
    { apply Forall_forall. intros y Hy. apply in_map_iff in Hy. destruct Hy as (row & <- & Hrow).
      apply in_map_iff in Hrow. destruct Hrow as (k & <- & Hk). unfold lhs_scale.
      rewrite map3_length, Hlen. vlia. }
    intros i Hi. exists (nth i perms []).
    pose proof (Forall_nth_lt _ perms [] i HP ltac:(vlia)) as Hpi. split; [exact Hpi|].
    intros k Hk.
    assert (Hs : nth k (nth i perms []) 0 < p).
    { assert (In (nth k (nth i perms []) 0) (seq 0 p)).
      { eapply Permutation_in; [exact Hpi|]. apply nth_In. rewrite (Permutation_length Hpi), seq_length. vlia. }
      apply in_seq in H. vlia. }
    set (kk := nth k (nth i perms []) 0) in *.
    destruct (Forall_nth_lt _ x0 [] kk HF ltac:(vlia)) as [Hrl Hr].
    destruct (Forall_nth_lt _ _ n0 i Hr ltac:(vlia)) as [Hv0 Hv1].
    exists (nth i (nth kk x0 []) n0). split; [exact Hv0|]. split; [exact Hv1|].
    rewrite nth_indep with (d' := lhs_scale lower upper []) by (rewrite !map_length, seq_length; exact Hk).
    rewrite (map_nth (lhs_scale lower upper)).
    rewrite nth_indep with (d' := (fun k => map2 (fun pi j => nth j (nth (nth k pi 0) x1 []) n0) perms (seq 0 d)) 0)
      by (rewrite map_length, seq_length; exact Hk).
    rewrite (map_nth (fun k => map2 (fun pi j => nth j (nth (nth k pi 0) x1 []) n0) perms (seq 0 d))).
    rewrite nth_seq0 by exact Hk.
    unfold lhs_scale. rewrite map3_nth with (a := n0) (b := n0) (c := n0) by (rewrite ?Hlen; vlia).
    rewrite map2_nth with (a := []) (b := 0) by (rewrite ?seq_length; vlia).
    rewrite nth_seq0 by vlia. fold kk. unfold x1.
    rewrite map2_nth with (a := []) (b := 0) by (rewrite ?seq_length; vlia).
    rewrite nth_seq0 by vlia.
    rewrite nth_indep with (d' := (fun v => nadd (ndiv v (nN p)) (lin p kk)) n0) by (rewrite map_length; vlia).
    rewrite (map_nth (fun v => nadd (ndiv v (nN p)) (lin p kk))). reflexivity.
  Qed.

  (** ** The four population methods *)

  (** The initial population of a call with bounds [rows]. *)
  Definition Initial (c : PopCall) (rows X : matrix) : Prop :=
    match a_x0 (pop_args c) with
    | Some x => X = nd_rows x
    | None => Sampled (Z.to_nat (a_popsize (pop_args c))) (lows rows) (ups rows) X
    end.
  (** The points at which it is evaluated: na goes through the unit cube. *)
  Definition as_evaluated (c : PopCall) (rows : matrix) (x : vec) : vec :=
    match c with
    | CallNA _ => unnormalize (lows rows) (ups rows) (normalize (lows rows) (ups rows) x)
    | _ => x
    end.
  Definition FirstPoints (c : PopCall) (Y : list vec) : Prop :=
    exists rows X m, (2 <= a_popsize (pop_args c))%Z /\ a_bounds (pop_args c) = D2 2 rows /\ Initial c rows X /\
      eval_kind (pop_sync c) (a_workers (pop_args c)) (a_backend (pop_args c)) = inl m /\
      Order m (map (as_evaluated c rows) X) Y.

  Lemma still_x0 (HE : EnvOK) a lower upper : length lower = nd_len (a_bounds a) -> length upper = nd_len (a_bounds a) ->
    still (match a_x0 a with Some x => ret (nd_rows x) | None => lhs (Z.to_nat (a_popsize a)) (nd_len (a_bounds a)) lower upper end)
      (fun X => match a_x0 a with Some x => X = nd_rows x | None => Sampled (Z.to_nat (a_popsize a)) lower upper X end).
  Proof.
    intros Hl Hu. destruct (a_x0 a); [apply safe_ret; reflexivity|]. apply still_lhs; auto.
  Qed.

  Local Hint Resolve disc_uniform disc_eval_pop disc_np_argmin disc_eval_kindM disc_uniform_vec
    disc_rand_mat disc_randn_vec disc_lhs disc_selection_async disc_selection_sync disc_rec_write
    disc_rec_alloc disc_unpack_bounds : disc.

  Tactic Notation "pre" uconstr(L) := eapply begins_pre; [eapply L|].

  Lemma still_raise_if b e : still (raise_if b e) (fun _ => True).
  Proof. apply safe_raise_if; auto. Qed.
  Lemma still_orelse {A} (o : option A) e : still (orelse o e) (fun a => o = Some a).
  Proof. apply safe_orelse; auto. Qed.
  Lemma begins_assoc {A B C} V (m : M A) (k : A -> M B) (h : B -> M C) :
    begins V (bind m (fun a => bind (k a) h)) -> begins V (bind (bind m k) h).
  Proof.
    intros H s. specialize (H s). unfold bind in *. destruct (m s) as [[a|e] s1]; exact H.
  Qed.
  Lemma still_kind sync w b : still (eval_kindM sync w b) (fun m => eval_kind sync w b = inl m).
  Proof.
    unfold eval_kindM. destruct (eval_kind sync w b); [apply safe_ret; reflexivity|apply safe_raise].
  Qed.
  Lemma kind_not_mpi sync w b m : b <> Some "mpi"%string -> eval_kind sync w b = inl m -> m <> Mpi.
  Proof. intros Hb Hk ->. apply Hb. eapply eval_kind_mpi, Hk. Qed.

  Lemma map_id_ext {A} (l : list A) : map (fun x => x) l = l.
  Proof. apply map_id. Qed.

  Lemma begins_de (HE : EnvOK) A : a_backend (dea A) <> Some "mpi"%string ->
    begins (FirstPoints (CallDE A)) (de_minimize A).
  Proof.
    intros Hnm. unfold de_minimize. cbn zeta.
    pre safe_check_pop. intros u0 Hargs; cbn beta in Hargs; clear u0. do 2 (pre still_raise_if; intros _ _).
    pre still_raise_if; intros _ _.
    pre still_orelse; intros st _.
    pre safe_seed_and_cb. intros _ _. unfold de. pre still_kind. intros m Hm. cbn zeta.
    pre safe_unpack. intros [lower upper] (rows & Hb & Hlu). injection Hlu as -> ->.
    pre still_orelse; intros con _.
    pre (still_x0 HE (dea A) (lows rows) (ups rows)); [rewrite Hb; apply map_length|rewrite Hb; apply map_length|].
    intros X HX. pre still_raise_if; intros _ _.
    apply begins_eval; [apply EnvOK_mode, HE|exact (kind_not_mpi _ _ _ _ Hnm Hm)| |].
    - intros Y HY. exists rows, X, m. split; [apply Hargs|]. split; [exact Hb|]. split; [exact HX|]. split; [exact Hm|].
      cbn [as_evaluated]. rewrite map_id_ext. exact HY.
    - intros [X' pf]. d1. apply disc_drive; intros; cbn [d_step d_post de_drv];
      [apply disc_de_step|d1].
  Qed.
  Lemma begins_cpso (HE : EnvOK) A : a_backend (pa A) <> Some "mpi"%string ->
    begins (FirstPoints (CallCPSO A)) (cpso_minimize A).
  Proof.
    intros Hnm. unfold cpso_minimize. cbn zeta.
    pre safe_check_pop. intros u0 Hargs; cbn beta in Hargs; clear u0. do 4 (pre still_raise_if; intros _ _).
    pre still_raise_if; intros _ _.
    pre safe_seed_and_cb. intros _ _. unfold cpso. pre still_kind. intros m Hm. cbn zeta.
    pre safe_unpack. intros [lower upper] (rows & Hb & Hlu). injection Hlu as -> ->.
    pre still_orelse; intros con _.
    pre (still_x0 HE (pa A) (lows rows) (ups rows)); [rewrite Hb; apply map_length|rewrite Hb; apply map_length|].
    intros X HX. pre still_raise_if; intros _ _.
    apply begins_eval; [apply EnvOK_mode, HE|exact (kind_not_mpi _ _ _ _ Hnm Hm)| |].
    - intros Y HY. exists rows, X, m. split; [apply Hargs|]. split; [exact Hb|]. split; [exact HX|]. split; [exact Hm|].
      cbn [as_evaluated]. rewrite map_id_ext. exact HY.
    - intros [X' pf]. d1. apply disc_drive; intros; cbn [d_step d_post pso_drv];
      [apply disc_pso_step|apply disc_pso_post].
  Qed.
  Lemma begins_na (HE : EnvOK) A : a_backend (naa A) <> Some "mpi"%string ->
    begins (FirstPoints (CallNA A)) (na_minimize A).
  Proof.
    intros Hnm. unfold na_minimize. cbn zeta.
    pre safe_check_pop. intros u0 Hargs; cbn beta in Hargs; clear u0. pre still_raise_if; intros _ _.
    pre safe_seed_and_cb. intros _ _. unfold na. pre still_kind. intros m Hm. cbn zeta.
    pre safe_unpack. intros [lower upper] (rows & Hb & Hlu). injection Hlu as -> ->.
    pre still_orelse; intros nr _.
    pre (still_x0 HE (naa A) (lows rows) (ups rows)); [rewrite Hb; apply map_length|rewrite Hb; apply map_length|].
    intros X HX. unfold na_eval.
    apply begins_assoc. cbn [na_mode na_lower na_upper].
    apply begins_eval; [apply EnvOK_mode, HE|exact (kind_not_mpi _ _ _ _ Hnm Hm)| |].
    - intros Y HY. exists rows, X, m. split; [apply Hargs|]. split; [exact Hb|]. split; [exact HX|]. split; [exact Hm|].
      rewrite map_map in HY. exact HY.
    - intros [X' pf]. d1. apply disc_drive; intros; cbn [d_step d_post na_drv];
      [apply disc_na_step|d1].
  Qed.

  (** The initial population of every run with serial or joblib evaluation: either nothing was
      evaluated, or the evaluated points start with it. *)
  Theorem first_points (HE : EnvOK) c w a0 r st' :
    a_backend (pop_args c) <> Some "mpi"%string ->
    exec (pop_run c) w a0 = (r, st') ->
    points (tr st') = [] \/ exists Y, FirstPoints c Y /\ Opens Y (points (tr st')).
  Proof.
    intros Hnm Hx. eapply begins_exec; [|exact Hx]. destruct c; cbn in *.
    - apply begins_de; auto.
    - apply begins_cpso; auto.
    - exact (begins_cpso HE (mkCPSOArgs (psa A) (psa_inertia A) (psa_cognitivity A) (psa_sociability A) None
                                (psa_updating A)) Hnm).
    - apply begins_na; auto.
  Qed.

  Lemma FirstPoints_length c Y : (forall x, a_x0 (pop_args c) = Some x -> PopArgsOK (pop_args c)) ->
    FirstPoints c Y -> Z.of_nat (length Y) = a_popsize (pop_args c).
  Proof.
    intros HA (rows & X & m & H2 & Hb & HI & _ & HO & _). apply Permutation_length in HO.
    rewrite map_length in HO. rewrite <- HO. unfold Initial in HI.
    destruct (a_x0 (pop_args c)) as [x|] eqn:Hx0.
    - subst X. destruct (pao_x0 _ (HA x eq_refl) x Hx0) as (Hd & _ & HL).
      destruct x; try discriminate. exact HL.
    - destruct HI as [HL _]. lia.
  Qed.

  (** A run that returns has evaluated the whole initial population first. *)
  Theorem first_points_returned (HE : EnvOK) c w a0 res st' :
    not_mpi c -> exec (pop_run c) w a0 = (inl res, st') ->
    FirstPoints c (firstn (Z.to_nat (a_popsize (pop_args c))) (points (tr st'))).
  Proof.
    intros Hnm Hx. destruct (first_points HE c w a0 _ st' Hnm Hx) as [H0|(Y & HY & Z & HZ)].
    - exfalso. pose proof (C01_nit_population c w a0 res st' HE Hx).
      destruct (C02_nfev_population c w a0 res st' HE Hnm Hx) as (H1 & H2 & _).
      rewrite <- points_length, H0 in H1. cbn in H1.
      destruct (pop_run_hist _ _ _ _ _ HE Hx) as (H' & HH & _). pose proof (pao_pop _ (ho_args _ _ HH)). nia.
    - destruct (pop_run_hist _ _ _ _ _ HE Hx) as (H' & HH & _).
      pose proof (FirstPoints_length c Y (fun _ _ => ho_args _ _ HH) HY) as HL.
      replace (Z.to_nat (a_popsize (pop_args c))) with (length Y) by lia.
      assert (Z = []) as ->.
      { pose proof (C01_nit_population c w a0 res st' HE Hx).
        destruct (C02_nfev_population c w a0 res st' HE Hnm Hx) as (H1 & H2 & _).
        rewrite <- points_length in H1. apply (f_equal (@length vec)) in HZ.
        rewrite app_length, firstn_length in HZ. destruct Z as [|z Z]; [reflexivity|]. cbn in HZ.
        assert (Z.of_nat (length Y) <= Z.of_nat (length (points (tr st'))))%Z by nia. lia. }
      rewrite app_nil_r in HZ. rewrite <- HZ. exact HY.
  Qed.

  (** C53: a given x0 is evaluated first, row by row (de, cpso, pso; na sees its image under
      normalize, see below). *)
  Theorem C53_x0_first (HE : EnvOK) c x w a0 res st' :
    not_mpi c -> a_x0 (pop_args c) = Some x -> match c with CallNA _ => False | _ => True end ->
    exec (pop_run c) w a0 = (inl res, st') ->
    Permutation (nd_rows x) (firstn (Z.to_nat (a_popsize (pop_args c))) (points (tr st'))) /\
    (eval_kind (pop_sync c) (a_workers (pop_args c)) (a_backend (pop_args c)) = inl Serial ->
     firstn (Z.to_nat (a_popsize (pop_args c))) (points (tr st')) = nd_rows x).
  Proof.
    intros Hnm Hx0 Hc Hx.
    destruct (first_points_returned HE c w a0 res st' Hnm Hx) as (rows & X & m & _ & _ & HI & Hm & HO & HS).
    unfold Initial in HI. rewrite Hx0 in HI. subst X.
    assert (Hid : map (as_evaluated c rows) (nd_rows x) = nd_rows x)
      by (destruct c; [apply map_id|apply map_id|apply map_id|tauto]).
    rewrite Hid in HO, HS. split; [exact HO|]. intros Hk. apply HS. congruence.
  Qed.
End FirstPop.
