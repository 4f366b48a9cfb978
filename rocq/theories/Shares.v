(** C76: what one process of an MPI run does: in every iteration it receives the points, evaluates
    the points whose index is its rank modulo the number of processes, and receives the values. *)
From Verif Require Import Base Num Env Common DE CPSO NA Mat CMAES VDCMA Hoare EvalRules Gen Steps
  Hist Runs Best Inst HistFacts HistBest PropPop CmaRun PropCma Par Lock Ranks.

(** ** The split of the indices *)
Section Split.
  (** The indices of one rank, in increasing order. *)
  Definition mine (rank size p : nat) : list nat := filter (fun i => i mod size =? rank) (seq 0 p).

  Lemma arange_mine rank size p : rank < size -> arange rank p size = mine rank size p.
  Proof.
    intros H. unfold arange, mine. apply filter_ext. intros i.
    destruct (Nat.leb_spec rank i) as [Hi|Hi]; cbn [andb].
    - assert (Hd : i = (i - rank) + rank) by lia.
      pose proof (Nat.div_mod (i - rank) size ltac:(lia)) as D.
      pose proof (Nat.mod_upper_bound (i - rank) size ltac:(lia)) as B.
      set (k := (i - rank) / size) in *. set (m := (i - rank) mod size) in *.
      destruct (Nat.eqb_spec m 0) as [M|M]; symmetry.
      + apply Nat.eqb_eq. replace i with (rank + k * size) by lia.
        rewrite Nat.mod_add by lia. apply Nat.mod_small, H.
      + apply Nat.eqb_neq. intros Hc.
        pose proof (Nat.div_mod i size ltac:(lia)) as D'. rewrite Hc in D'.
        assert (m = 0); [|congruence]. unfold m.
        replace (i - rank) with (0 + (i / size) * size) by lia.
        rewrite Nat.mod_add by lia. apply Nat.mod_small. lia.
    - symmetry. apply Nat.eqb_neq. rewrite Nat.mod_small by lia. lia.
  Qed.

  (** Every index belongs to exactly one rank. *)
  Theorem C76_split size p : 0 < size ->
    Permutation (flat_map (fun r => mine r size p) (seq 0 size)) (seq 0 p) /\
    (forall r i, In i (mine r size p) <-> i < p /\ i mod size = r) /\
    (forall r, NoDup (mine r size p)).
  Proof.
    intros Hs.
    assert (HM : forall r i, In i (mine r size p) <-> i < p /\ i mod size = r).
    { intros r i. unfold mine. rewrite filter_In, in_seq, Nat.eqb_eq. lia. }
    assert (HN : forall r, NoDup (mine r size p)) by (intros r; apply NoDup_filter, seq_NoDup).
    split; [|split; assumption].
    apply NoDup_Permutation; [|apply seq_NoDup|].
    - assert (G : forall n a, NoDup (flat_map (fun r => mine r size p) (seq a n))).
      { induction n as [|n IH]; intros a; [constructor|]. cbn [seq flat_map].
        assert (D : forall i, In i (mine a size p) ->
                   ~ In i (flat_map (fun r => mine r size p) (seq (S a) n))).
        { intros i Hi Hc. apply in_flat_map in Hc. destruct Hc as (r & Hr & Hc).
          apply HM in Hi. apply HM in Hc. apply in_seq in Hr. lia. }
        specialize (IH (S a)). revert D. generalize (HN a).
        induction (mine a size p) as [|i l IL]; intros Hl D; [exact IH|].
        inversion Hl; subst. cbn. constructor.
        - rewrite in_app_iff. intros [Hc|Hc]; [auto|]. apply (D i); cbn; auto.
        - apply IL; auto. intros j Hj. apply D. right. exact Hj. }
      apply G.
    - intros i. rewrite in_flat_map, in_seq. split.
      + intros (r & _ & H). apply HM in H. lia.
      + intros Hi. exists (i mod size). split; [|apply HM; lia].
        apply in_seq. pose proof (Nat.mod_upper_bound i size ltac:(lia)). lia.
  Qed.

  (** The number of indices of a rank. *)
  Theorem C76_size rank size p : rank < size ->
    length (mine rank size p) = p / size + (if rank <? p mod size then 1 else 0).
  Proof.
    intros Hr. induction p as [|p IH].
    - cbn [mine seq filter length]. rewrite Nat.div_0_l, Nat.mod_0_l by lia. reflexivity.
    - unfold mine in *. rewrite seq_S, filter_app, app_length, IH. cbn [Nat.add filter length].
      pose proof (Nat.div_mod p size ltac:(lia)) as D.
      pose proof (Nat.mod_upper_bound p size ltac:(lia)) as B.
      set (k := p / size) in *. set (m := p mod size) in *.
      destruct (Nat.eq_dec (S m) size) as [He|He].
      + assert (H1 : S p = 0 + (S k) * size) by nia.
        rewrite H1, Nat.div_add, Nat.mod_add, Nat.div_0_l, Nat.mod_0_l by lia.
        destruct (Nat.ltb_spec rank m), (Nat.eqb_spec m rank), (Nat.ltb_spec rank 0); cbn [length]; lia.
      + assert (H1 : S p = S m + k * size) by nia.
        rewrite H1, Nat.div_add, Nat.mod_add, Nat.div_small, Nat.mod_small by lia.
        destruct (Nat.ltb_spec rank m), (Nat.eqb_spec m rank), (Nat.ltb_spec rank (S m)); cbn [length]; lia.
  Qed.

  (** Shares differ by at most one point. *)
  Theorem C76_balanced r1 r2 size p : r1 < size -> r2 < size ->
    length (mine r1 size p) <= length (mine r2 size p) + 1.
  Proof.
    intros H1 H2. rewrite !C76_size by assumption.
    destruct (r1 <? p mod size), (r2 <? p mod size); lia.
  Qed.

  Lemma split_total size p : 0 < size ->
    fold_right plus 0 (map (fun r => length (mine r size p)) (seq 0 size)) = p.
  Proof.
    intros Hs. destruct (C76_split size p Hs) as (HP & _).
    apply Permutation_length in HP. rewrite seq_length in HP. refine (eq_trans _ HP).
    generalize (seq 0 size). induction l as [|r l IH]; [reflexivity|]. cbn.
    rewrite app_length, IH. reflexivity.
  Qed.
End Split.

Section Shares.
  Context {N : Num} {E : Env N}.

  (** One iteration: the points [X] are received, the points of this rank are evaluated in order
      (with the values [v]), the values [f] are received; then the callback is called. *)
  Definition Round (p : nat) (cb : bool) (t : list event) (f : vec) : Prop :=
    exists (X : matrix) (v : vec) (tl : list event), length X = p /\ length f = p /\
      t = EBcast X :: map (fun i => @EEval num_arith (nth i X []) (inl (nth i v n0))) (mine e_rank e_mpisize p)
            ++ EReduce f :: tl /\
      (if cb then exists Y st, tl = [ECb Y st None] else tl = []).
  Inductive Rounds (p : nat) (cb : bool) : list event -> list vec -> Prop :=
  | Rounds_nil : Rounds p cb [] []
  | Rounds_snoc t fs r f : Rounds p cb t fs -> Round p cb r f -> Rounds p cb (t ++ r) (fs ++ [f]).

  Lemma Shares_round p f evs (cb : bool) (tl : list event) : e_rank < e_mpisize -> length f = p ->
    Shares Mpi p f evs -> (if cb then exists Y st, tl = [ECb Y st None] else tl = []) ->
    Round p cb (evs ++ tl) f.
  Proof.
    intros Hr Hf [_ H] Htl. destruct (H eq_refl) as (X & v & HX & ->).
    exists X, v, tl. split; [exact HX|]. split; [exact Hf|]. split; [|exact Htl].
    rewrite map_map, (arange_mine _ _ _ Hr). cbn [app]. rewrite <- app_assoc. reflexivity.
  Qed.

  Lemma cbe_tail (H : HParams) it q r X :
    if h_cb H then exists Y st, cbe H it q r X = [ECb Y st None] else cbe H it q r X = [].
  Proof. unfold cbe. destruct (h_cb H); eauto. Qed.

  Lemma Hist_rounds (H : HParams) it q r st pop t :
    e_rank < e_mpisize -> h_mode H = Mpi -> h_sync H = true -> Hist H it q r st pop t ->
    exists fs, Rounds (h_p H) (h_cb H) t fs /\ Z.of_nat (length fs) = it.
  Proof.
    intros Hr Hm Hs Hh.
    induction Hh as [X X' f evs r HX HX' Hf Hc Hsh Hev HC0 Hrec Xk HXk HXe q
                   |it q r pop t q1 q' st evs cand cf r' Hh IH Hb HG HC Hrec].
    - exists ([] ++ [f]). split; [|reflexivity]. apply (Rounds_snoc _ _ []); [constructor|].
      rewrite Hm in Hsh. apply Shares_round; auto. apply cbe_tail.
    - destruct IH as (fs & IH & Hl). exists (fs ++ [cf]). split; [|rewrite app_length; cbn [length]; lia].
      apply Rounds_snoc; [exact IH|].
      pose proof (gs_shares _ _ _ _ _ _ _ _ _ _ _ _ _ _ HG) as Hsh. rewrite Hs, Hm in Hsh.
      apply Shares_round; auto; [exact (gs_lenf _ _ _ _ _ _ _ _ _ _ _ _ _ _ HG)|apply cbe_tail].
  Qed.

  Lemma CHist_rounds Y P cb it s st t :
    e_rank < e_mpisize -> cm_mode P = Mpi -> CHist Y P cb it s st t ->
    exists fs, Rounds (cm_p P) cb t fs /\ Z.of_nat (length fs) = it.
  Proof.
    intros Hr Hm Hh. induction Hh as [|it s t s' st evs arx raw Hh IH HG HM].
    - exists []. split; [constructor|reflexivity].
    - destruct IH as (fs & IH & Hl). exists (fs ++ [raw]). split; [|rewrite app_length; cbn [length]; lia].
      apply Rounds_snoc; [exact IH|].
      pose proof (cg_shares _ _ _ _ _ _ _ _ _ HG) as Hsh. rewrite Hm in Hsh.
      apply Shares_round; auto; [exact (cg_lenr _ _ _ _ _ _ _ _ _ HG)|].
      unfold ccbe. destruct cb; eauto.
  Qed.

  Lemma mpi_kind wk : eval_kind true wk (Some "mpi"%string) = inl Mpi.
  Proof. reflexivity. Qed.
  Lemma mpi_sync u a : a_backend a = Some "mpi"%string -> is_sync u a = true.
  Proof. intros H. unfold is_sync. rewrite H. cbn. apply orb_true_r. Qed.

  Definition opt_pop (c : OptCall) : PopCall + CmaCall :=
    match c with
    | PDe A => inl (CallDE A) | PCpso A => inl (CallCPSO A) | PPso A => inl (CallPSO A)
    | PNa A => inl (CallNA A) | PCmaes A => inr (CallCMA A) | PVdcma A => inr (CallVD A)
    end.
  Lemma opt_pop_run c :
    match opt_pop c with
    | inl d => opt_run c = pop_run d /\ opt_args c = pop_args d
    | inr d => opt_run c = cma_run d /\ opt_args c = cma_args d
    end.
  Proof. destruct c; split; reflexivity. Qed.

  Lemma pop_mpi c H : a_backend (pop_args c) = Some "mpi"%string -> HistOf c H ->
    h_mode H = Mpi /\ h_sync H = true.
  Proof.
    intros HB HH.
    assert (HS : pop_sync c = true) by (destruct c; cbn in *; auto using mpi_sync).
    pose proof (ho_mode _ _ HH) as Hk. rewrite HS, HB, mpi_kind in Hk.
    rewrite (ho_sync _ _ HH). split; [congruence|exact HS].
  Qed.

  (** The trace of a returned run on one rank. *)
  Theorem C76_rounds c w a0 res st' :
    EnvOK -> e_rank < e_mpisize -> a_backend (opt_args c) = Some "mpi"%string ->
    exec (opt_run c) w a0 = (inl res, st') ->
    exists fs, Rounds (Z.to_nat (a_popsize (opt_args c))) (has_cb (opt_args c)) (tr st') fs /\
               Z.of_nat (length fs) = r_nit res /\
               r_nfev res = (r_nit res * a_popsize (opt_args c))%Z.
  Proof.
    intros HE Hr HB Hx. pose proof (opt_pop_run c) as Hc. destruct (opt_pop c) as [d|d];
      destruct Hc as [Hc Ha]; rewrite Hc in Hx; rewrite Ha in *.
    - destruct (pop_run_hist _ _ _ _ _ HE Hx) as (H & HH & it & q & r & cc & m & pop & Hh & _ & _ & ->).
      destruct (pop_mpi _ _ HB HH) as [Hm Hs].
      destruct (Hist_rounds _ _ _ _ _ _ _ Hr Hm Hs Hh) as (fs & H1 & H2).
      exists fs. rewrite <- (ho_p _ _ HH), Nat2Z.id, <- (ho_cb _ _ HH). auto.
    - destruct (cma_run_hist _ _ _ _ _ HE Hx) as (P & HP & it & s & st & m & Hh & Hi & Hm & ->).
      assert (Hk : cm_mode P = Mpi).
      { pose proof (cpo_mode _ _ HP) as Hk. unfold cma_args in HB. rewrite HB, mpi_kind in Hk. congruence. }
      destruct (CHist_rounds _ _ _ _ _ _ _ Hr Hk Hh) as (fs & H1 & H2).
      destruct (CHist_it _ _ _ _ _ _ _ Hh) as (_ & _ & H3 & _).
      exists fs. unfold cma_args. rewrite <- (cpo_p _ _ HP). cbn [r_nit r_nfev].
      split; [exact H1|]. split; [exact H2|]. rewrite H3.
      pose proof (cpo_p _ _ HP). pose proof (cpo_p1 _ _ HP). nia.
  Qed.

  Lemma Round_calls p cb t f : Round p cb t f ->
    ncalls t = length (mine e_rank e_mpisize p) /\ reduces t = [f] /\ length (bcasts t) = 1.
  Proof.
    intros (X & v & tl & _ & _ & -> & Htl).
    assert (Ht : ncalls tl = 0 /\ reduces tl = [] /\ bcasts tl = []).
    { destruct cb; [destruct Htl as (Y & st & ->)|rewrite Htl]; auto. }
    destruct Ht as (T1 & T2 & T3).
    cbn. rewrite ?ncalls_app, reduces_app, bcasts_app. cbn. rewrite T1, T2, T3.
    induction (mine e_rank e_mpisize p) as [|i l IH]; cbn; auto.
    destruct IH as (I1 & I2 & I3). rewrite I1, I2, I3. auto.
  Qed.
  Lemma Rounds_calls p cb t fs : Rounds p cb t fs ->
    ncalls t = length fs * length (mine e_rank e_mpisize p) /\ reduces t = fs.
  Proof.
    induction 1 as [|t fs r f H [I1 I2] HR]; [auto|].
    destruct (Round_calls _ _ _ _ HR) as (H1 & H2 & _).
    rewrite ncalls_app, reduces_app, app_length, I1, I2, H1, H2. cbn [length]. split; [lia|reflexivity].
  Qed.

  (** The number of calls of the objective on one rank. *)
  Theorem C76_calls c w a0 res st' :
    EnvOK -> e_rank < e_mpisize -> a_backend (opt_args c) = Some "mpi"%string ->
    exec (opt_run c) w a0 = (inl res, st') ->
    let p := Z.to_nat (a_popsize (opt_args c)) in
    Z.of_nat (ncalls (tr st')) =
      (r_nit res * Z.of_nat (p / e_mpisize + (if e_rank <? p mod e_mpisize then 1 else 0))%nat)%Z.
  Proof.
    intros HE Hr HB Hx p. destruct (C76_rounds _ _ _ _ _ HE Hr HB Hx) as (fs & H1 & H2 & _).
    destruct (Rounds_calls _ _ _ _ H1) as [H3 _]. rewrite H3, (C76_size _ _ _ Hr), <- H2. unfold p. lia.
  Qed.
End Shares.

(** All ranks together: when they return after the same number of iterations (C67), nfev is the
    number of calls of the objective over all processes. *)
Theorem C76_nfev {N : Num} (Es : nat -> Env N) (c : OptCall) size n
    (w : forall r, @RNG N (Es r) * @US N (Es r)) a0
    (res : nat -> OptRes) (st : forall r, @St N (Es r)) :
  0 < size -> a_backend (opt_args c) = Some "mpi"%string ->
  (forall r, r < size -> @EnvOK N (Es r) /\ @e_rank N (Es r) = r /\ @e_mpisize N (Es r) = size /\
     @exec N (Es r) _ (opt_run c) (w r) a0 = (inl (res r), st r) /\ r_nit (res r) = n) ->
  forall r, r < size ->
    r_nfev (res r) = Z.of_nat (fold_right plus 0 (map (fun k => ncalls (tr (st k))) (seq 0 size))).
Proof.
  intros Hs HB HR r Hr. set (p := Z.to_nat (a_popsize (opt_args c))).
  assert (Hc : forall k, k < size ->
     ncalls (tr (st k)) = Z.to_nat n * length (mine k size p) /\
     r_nfev (res k) = (n * a_popsize (opt_args c))%Z /\ (0 <= n)%Z).
  { intros k Hk. destruct (HR k Hk) as (H1 & H2 & H3 & H4 & H5).
    destruct (C76_rounds (E := Es k) _ _ _ _ _ H1 ltac:(rewrite H2, H3; exact Hk) HB H4)
      as (fs & F1 & F2 & F3).
    destruct (Rounds_calls _ _ _ _ F1) as [H6 _]. rewrite H6, H2, H3, F3, H5. unfold p.
    split; [|split; [reflexivity|lia]]. f_equal. lia. }
  destruct (Hc r Hr) as (_ & Hf & Hn). rewrite Hf.
  assert (HT : fold_right plus 0 (map (fun k => ncalls (tr (st k))) (seq 0 size)) = Z.to_nat n * p).
  { rewrite <- (split_total size p Hs) at 1.
    assert (HI : forall k, In k (seq 0 size) -> k < size) by (intros k Hk; apply in_seq in Hk; lia).
    revert HI. generalize (seq 0 size). induction l as [|k l IH]; intros HI; [cbn; lia|].
    cbn [map fold_right]. rewrite IH by (intros; apply HI; right; assumption).
    destruct (Hc k (HI k ltac:(left; reflexivity))) as (-> & _). lia. }
  rewrite HT. destruct (HR r Hr) as (H1 & H2 & H3 & H4 & H5).
  assert (0 <= a_popsize (opt_args c))%Z; [|unfold p; nia].
  pose proof (opt_pop_run (E := Es r) c) as Hd. destruct (opt_pop c) as [d|d]; destruct Hd as [Hd Ha];
    rewrite Hd in H4; rewrite Ha.
  - destruct (pop_run_hist _ _ _ _ _ H1 H4) as (H & HH & _). pose proof (ho_p _ _ HH). lia.
  - destruct (cma_run_hist _ _ _ _ _ H1 H4) as (P & HP & _). pose proof (cpo_p1 _ _ HP).
    unfold cma_args. lia.
Qed.

(** The value returned is the least of the values received. *)
Section Least.
  Context {N : Num} {E : Env N} {L : OrdLaws num_arith}.
  Notation nil_view := (fun _ : vec => [] : vec).
  Notation tag := (map (fun y : T => ([] : vec, y))).

  Lemma combine_tag (X : matrix) (f : vec) : length X = length f -> combine (map nil_view X) f = tag f.
  Proof.
    revert f; induction X as [|x X IH]; intros [|y f] Hl; cbn in *; try discriminate; auto.
    f_equal; auto.
  Qed.

  Lemma Hist_least (H : HParams) comp it q r st pop t :
    h_mode H = Mpi -> h_sync H = true -> 1 <= h_p H -> Between H comp ->
    (comp = true -> ArgsortOK /\ RestartLaw (h_p H) /\ isnum (nlit 1 30)) ->
    Hist H it q r st pop t ->
    Forall isnum (nth 0 (reduces t) []) ->
    (comp = true -> forall y, In y (concat (reduces t)) -> isnum y -> nltb y (nlit 1 30) = true) ->
    BInv comp nil_view (h_p H) q (tag (concat (reduces t))).
  Proof.
    intros Hm Hy Hp HB HR Hh.
    assert (HC : forall it q r X, reduces (cbe H it q r X) = []).
    { intros. unfold cbe. destruct (h_cb H); reflexivity. }
    assert (HE : forall f evs, Shares Mpi (h_p H) f evs -> reduces evs = [f]).
    { intros f evs [_ Hs]. destruct (Hs eq_refl) as (X & v & _ & ->). cbn. rewrite reduces_app. cbn.
      rewrite map_map. generalize (arange e_rank (h_p H) e_mpisize).
      induction l as [|i l IH]; cbn; auto. }
    induction Hh as [X X' f evs r HX HX' Hf Hc Hs Hev HC0 Hrec Xk HXk HXe q
                   |it q r pop t q1 q' st evs cand cf r' Hh IH Hb HG HCC Hrec]; intros Hn HS.
    - rewrite Hm in Hs. rewrite reduces_app, HC, (HE _ _ Hs), app_nil_r in *.
      cbn [nth concat app] in *. rewrite app_nil_r in *.
      pose proof (BInv_init comp nil_view (h_p H) Xk f (tag f) Hp HXk Hf Hn) as I.
      rewrite combine_tag in I by congruence. specialize (I (fun z => conj (fun h => h) (fun h => h))).
      destruct I as [lx lf real num best bnum mn wit]. constructor; auto.
    - pose proof (gs_shares _ _ _ _ _ _ _ _ _ _ _ _ _ _ HG) as Hs. rewrite Hy, Hm in Hs.
      rewrite !reduces_app, HC, (HE _ _ Hs), app_nil_r in *.
      rewrite concat_app in *. cbn [concat] in *. rewrite app_nil_r in *.
      assert (Hne : reduces t <> []).
      { inversion Hh; subst; rewrite !reduces_app.
        - match goal with K : Shares (h_mode H) _ _ _ |- _ => rewrite Hm in K; rewrite (HE _ _ K) end.
          discriminate.
        - match goal with K : GenStep _ _ _ _ _ _ _ _ _ _ _ _ _ _ |- _ =>
            pose proof (gs_shares _ _ _ _ _ _ _ _ _ _ _ _ _ _ K) as K' end.
          rewrite Hy, Hm in K'. rewrite (HE _ _ K'). intros K0. apply app_eq_nil in K0 as [_ K0]. discriminate. }
      assert (Hn' : Forall isnum (nth 0 (reduces t) [])).
      { destruct (reduces t); [congruence|exact Hn]. }
      assert (HS' : comp = true -> forall y, In y (concat (reduces t)) -> isnum y -> nltb y (nlit 1 30) = true).
      { intros Hcm y Hyy. apply HS; auto. apply in_or_app; auto. }
      specialize (IH Hn' HS').
      assert (I1 : BInv comp nil_view (h_p H) q1 (tag (concat (reduces t)))).
      { destruct (HB _ _ _ Hb) as [->|(Hcm & g & nw & Y & Hrc & Hpos & HY & Hx & Hff & Hbb & Hbf)];
          [exact IH|].
        destruct (HR Hcm) as (HA & HRL & Hbig). subst comp.
        apply (BInv_restart nil_view (h_p H) q q1 _ Y (Z.to_nat nw)); auto.
        specialize (HRL _ _ _ _ Hrc). lia. }
      pose proof (BInv_gen comp nil_view (h_p H) q1 _ (h_sync H) (it + 1) (h_mx H) (h_xtol H)
         (h_ftol H) cand cf I1 (gs_len _ _ _ _ _ _ _ _ _ _ _ _ _ _ HG)
         (gs_lenf _ _ _ _ _ _ _ _ _ _ _ _ _ _ HG)) as Hg.
      rewrite (gs_next _ _ _ _ _ _ _ _ _ _ _ _ _ _ HG) in Hg. cbn [fst] in Hg.
      rewrite combine_tag in Hg.
      + rewrite map_app. apply Hg. intros Hcm x y Hxy. apply HS; auto.
        rewrite <- map_app in Hxy. apply in_map_iff in Hxy. destruct Hxy as (z & Hz & Hzi).
        injection Hz as _ <-. exact Hzi.
      + rewrite (gs_len _ _ _ _ _ _ _ _ _ _ _ _ _ _ HG).
        symmetry. exact (gs_lenf _ _ _ _ _ _ _ _ _ _ _ _ _ _ HG).
  Qed.

  Theorem C76_least c w a0 res st' :
    EnvOK -> a_backend (pop_args c) = Some "mpi"%string -> exec (pop_run c) w a0 = (inl res, st') ->
    Forall isnum (nth 0 (reduces (tr st')) []) ->
    (pop_comp c = true ->
     RestartLaw (Z.to_nat (a_popsize (pop_args c))) /\ isnum (nlit 1 30) /\
     forall y, In y (concat (reduces (tr st'))) -> isnum y -> nltb y (nlit 1 30) = true) ->
    In (r_fun res) (concat (reduces (tr st'))) /\ isnum (r_fun res) /\
    forall f y, In f (reduces (tr st')) -> In y f -> isnum y -> nleb (r_fun res) y = true.
  Proof.
    intros HE HB Hx Hi Hb.
    destruct (pop_run_hist _ _ _ _ _ HE Hx) as (H & HH & it & q & r & cc & m & pop & Hh & Hm & _ & ->).
    destruct (pop_mpi _ _ HB HH) as [Hmo Hsy]. rewrite (pop_p _ _ HH) in Hb.
    assert (I : BInv (pop_comp c) nil_view (h_p H) q (tag (concat (reduces (tr st'))))).
    { apply (Hist_least H (pop_comp c) it q r (Some cc) pop); auto.
      - pose proof (ho_p2 _ _ HH); lia.
      - exact (ho_B _ _ HH).
      - intros Hc. destruct (Hb Hc) as (H1 & H2 & _). split; [apply HE|auto].
      - intros Hc. apply Hb, Hc. }
    cbn [r_fun].
    assert (T : forall y, In ([] : vec, y) (tag (concat (reduces (tr st')))) <-> In y (concat (reduces (tr st')))).
    { intros y. rewrite in_map_iff. split; [intros (z & Hz & Hzi); congruence|intros; exists y; auto]. }
    split; [apply T; exact (bi_best _ _ _ _ _ I)|]. split; [exact (bi_bnum _ _ _ _ _ I)|].
    intros f y Hf Hy. apply (bi_min _ _ _ _ _ I []). apply T. apply in_concat. eauto.
  Qed.

  (** cmaes and vdcma without constraints: the value returned is the least of the last values
      received. *)
  Theorem C76_least_cma c w a0 res st' :
    EnvOK -> a_backend (cma_args c) = Some "mpi"%string -> a_constraints (cma_args c) = None ->
    exec (cma_run c) w a0 = (inl res, st') ->
    exists older f, reduces (tr st') = older ++ [f] /\ In (r_fun res) f /\
      (Forall isnum f -> Forall (fun y => nleb (r_fun res) y = true) f).
  Proof.
    intros HE HB Hc Hx.
    destruct (cma_run_hist _ _ _ _ _ HE Hx) as (P & HP & it & s & st & m & Hh & Hi & Hm & ->).
    assert (Hk : cm_mode P = Mpi).
    { pose proof (cpo_mode _ _ HP) as Hk. unfold cma_args in HB. rewrite HB, mpi_kind in Hk. congruence. }
    assert (Hp1 : 1 <= cm_p P) by (pose proof (cpo_p _ _ HP); pose proof (cpo_p1 _ _ HP); lia).
    destruct (CHist_last _ _ _ _ _ _ _ Hh Hi) as (s0 & t0 & evs & arx & raw & Hh0 & HG & _ & Ht).
    assert (Hpen : cm_pen P = false)
      by (rewrite (cpo_pen _ _ HP); unfold cma_args in Hc; rewrite Hc; reflexivity).
    destruct (fo_plain _ _ _ _ _ _ _ _ _ (cg_fit _ _ _ _ _ _ _ _ _ HG) Hpen) as (_ & Hfr & _).
    destruct (CGen_len _ _ _ _ _ _ _ _ _ HG) as [_ Hlf].
    pose proof (cg_shares _ _ _ _ _ _ _ _ _ HG) as [_ Hs]. destruct (Hs Hk) as (X & v & _ & He).
    exists (reduces t0), raw. split.
    { rewrite Ht, !reduces_app, He. cbn. rewrite reduces_app. cbn.
      assert (R1 : forall l, reduces (map ok (map (fun i => (nth i X [], nth i v n0)) l)) = []).
      { induction l as [|i l IH]; cbn; auto. }
      rewrite R1. unfold ccbe. destruct (has_cb (cma_args c)); reflexivity. }
    destruct (eo_argsort HE) as [Hperm Hsort].
    pose proof (cg_index _ _ _ _ _ _ _ _ _ HG) as Hix.
    cbn [r_fun]. rewrite <- Hfr.
    set (f := cv_fit (c_view (cma_sysof c P) s)) in *.
    pose proof (Permutation_length (Hperm f)) as Hpl. rewrite seq_length in Hpl.
    unfold cv_bestf, cv_best. fold f. rewrite Hix. split.
    - apply nth_In.
      assert (Hin : In (nth 0 (e_argsort f) 0) (seq 0 (length f))).
      { apply (Permutation_in _ (Hperm f)). apply nth_In. unfold vec in *; lia. }
      apply in_seq in Hin. unfold vec in *; lia.
    - intros Hnf. apply Forall_forall. intros y Hy. destruct (In_nth f y n0 Hy) as (i & Hi' & Hyi).
      assert (Hii : In i (e_argsort f))
        by (apply (Permutation_in _ (Permutation_sym (Hperm f))), in_seq; lia).
      destruct (In_nth _ i 0 Hii) as (b & Hb' & Hbi).
      rewrite <- Hyi, <- Hbi.
      destruct b as [|b].
      + apply le_refl_num. rewrite Forall_forall in Hnf. apply Hnf, nth_In. rewrite Hbi; exact Hi'.
      + apply Hsort; [exact Hnf|lia|]. unfold vec in *; lia.
  Qed.
End Least.
