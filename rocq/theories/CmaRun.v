(** The history of a run of CMA-ES or VD-CMA: one generation after the other. *)
From Verif Require Import Base Num Env Common DE CPSO NA Mat CMAES VDCMA Hoare EvalRules Gen Steps
  Hist Runs.

Section CHist.
  Context {N : Num} {E : Env N}.
  Local Open Scope num_scope.

  (** What CMA-ES and VD-CMA have in common. *)
  Record CV := mkCV {
    cv_xmean : vec; cv_xold : vec; cv_sigma : T; cv_pen : PenState; cv_nfev : Z; cv_hist : vec;
    cv_valid : matrix; cv_fit : vec; cv_index : list nat; cv_rec : option Rec }.

  Definition cv_best (v : CV) : nat := nth 0 (cv_index v) 0%nat.
  Definition cv_bestf (v : CV) : T := nth (cv_best v) (cv_fit v) n0.

  (** How the fitness of a generation comes from the raw values of the objective:
      [arx] sampled points, [valid] evaluated points, [raw] values returned by the objective. *)
  Record FitOf (P : CMAParams) (it : Z) (v : CV) (diagC : vec) (arx valid : matrix) (raw fit : vec)
      (pen' : PenState) : Prop := {
    fo_plain : cm_pen P = false -> valid = arx /\ fit = raw /\ pen' = cv_pen v;
    fo_pen : cm_pen P = true ->
      valid = map (map clip1) arx /\
      fit = map3 (fun f y x => f + penalty y x (pen_w pen') (bnd_scale diagC)) raw valid arx /\
      exists delta hist,
        ((delta = (e_percentile raw (nZ 75) - e_percentile raw (nZ 25))
                  / nN (cm_d P) / vmean diagC / nsq (cv_sigma v) /\
          delta =? n0 = false /\
          hist = (if pen_valid (cv_pen v) then pen_hist (cv_pen v) else []) /\ pen_valid pen' = true)
         \/ ((e_percentile raw (nZ 75) - e_percentile raw (nZ 25))
                  / nN (cm_d P) / vmean diagC / nsq (cv_sigma v) =? n0 = true /\
             hist = pen_hist (cv_pen v) /\ filter (fun x => n0 <? x) hist <> [] /\
             delta = vmin (filter (fun x => n0 <? x) hist) /\ pen_valid pen' = pen_valid (cv_pen v))) /\
        pen_hist pen' = (if nN (length hist) <? nZ 20 + nZ 3 * nN (cm_d P) / nN (cm_p P)
                         then hist ++ [delta] else tl hist ++ [delta]) /\
        pen_w pen' =
          (let w := if pen_ini (cv_pen v) && existsb (fun b => b) (pen_ti (cv_xmean v))
                    then repeat (nlit 20002 (-4) * e_median (pen_hist pen')) (cm_d P)
                    else pen_w (cv_pen v) in
           if existsb (fun b => b) (pen_ti (cv_xmean v))
           then pen_grow (cm_d P) (cm_mueff P)
                  (pen_idx (cm_d P) (cm_mueff P) (cv_sigma v) diagC (cv_xmean v) (cv_xold v)) w
           else w) /\
        pen_ini pen' = pen_ini (cv_pen v) &&
          negb (existsb (fun b => b) (pen_ti (cv_xmean v)) && (pen_valid pen' && (2 <? it)%Z)) }.

  (** One generation as seen from outside. *)
  Record CGen (P : CMAParams) (it : Z) (v v' : CV) (st : option Z) (evs : list event)
      (diagC : vec) (arx : matrix) (raw : vec) : Prop := {
    cg_it : (it <= cm_maxiter P)%Z;
    cg_len : length arx = cm_p P;
    cg_lenr : length raw = cm_p P;
    cg_cbs : cbs evs = [];
    cg_shares : Shares (cm_mode P) (cm_p P) raw evs;
    cg_ev : cm_mode P <> Mpi ->
            exists l, evs = map ok l /\ Permutation l (combine (map (cma_un P) (cv_valid v')) raw) /\
                      (cm_mode P = Serial -> l = combine (map (cma_un P) (cv_valid v')) raw);
    cg_fit : FitOf P it v diagC arx (cv_valid v') raw (cv_fit v') (cv_pen v');
    cg_index : cv_index v' = e_argsort (cv_fit v');
    cg_nfev : cv_nfev v' = (cv_nfev v + Z.of_nat (cm_p P))%Z;
    cg_rec : RecW (cm_nout P) (cm_maxiter P) it (map (cma_un P) (cv_valid v')) (cv_fit v')
               (cma_un P (fst (best_row (cv_valid v') (cv_fit v'))),
                snd (best_row (cv_valid v') (cv_fit v'))) (cv_rec v) (cv_rec v');
    cg_hist : cv_hist v' = upd (Z.to_nat (it - 1)) (cv_bestf v') (cv_hist v);
    cg_xold : cv_xold v' = cv_xmean v;
    cg_status : exists pc diag BD,
      st = converge it (cm_d P) (cm_maxiter P) (cv_xmean v') (cv_xold v') (cv_hist v') (cv_fit v')
                    (cv_bestf v') (cv_sigma v') (cm_insigma P) (cm_ilim P) pc (cm_xtol P)
                    (cm_ftol P) diag BD }.

  (** A concrete solver: its state, the common part, its further equations. *)
  Record CSys := mkCSys {
    c_S : Type;
    c_view : c_S -> CV;
    c_diagC : c_S -> vec;
    c_init : c_S -> Prop;
    c_more : Z -> c_S -> c_S -> matrix -> Prop }.

  Definition c_state (P : CMAParams) (it : Z) (v : CV) : CbState :=
    {| cb_x := cma_un P (nth (cv_best v) (cv_valid v) []); cb_fun := cv_bestf v;
       cb_nfev := cv_nfev v; cb_nit := it; cb_all := cv_rec v |}.
  Definition ccbe (P : CMAParams) (cb : bool) (it : Z) (v : CV) : list event :=
    if cb then [ECb (map (cma_un P) (cv_valid v)) (c_state P it v) None] else [].

  Inductive CHist (Y : CSys) (P : CMAParams) (cb : bool)
    : Z -> c_S Y -> option Z -> list event -> Prop :=
  | CHist_init s :
      c_init Y s -> cv_nfev (c_view Y s) = 0%Z ->
      cv_hist (c_view Y s) = repeat n0 (Z.to_nat (cm_maxiter P)) ->
      cv_rec (c_view Y s) = rec0 (cm_nout P) ->
      cv_pen (c_view Y s) = cma_init_pen (cm_d P) ->
      cv_sigma (c_view Y s) = cm_insigma P ->
      CHist Y P cb 0 s None []
  | CHist_step it s t s' st evs arx raw :
      CHist Y P cb it s None t ->
      CGen P (it + 1) (c_view Y s) (c_view Y s') st evs (c_diagC Y s) arx raw ->
      c_more Y (it + 1) s s' arx ->
      CHist Y P cb (it + 1) s' st (t ++ evs ++ ccbe P cb (it + 1) (c_view Y s')).

  (** A returned result and its trace. *)
  Definition CRunOf (Y : CSys) (P : CMAParams) (cb : bool) (res : OptRes) (t : list event) : Prop :=
    exists it s c m,
      CHist Y P cb it s (Some c) t /\ (0 < it)%Z /\ message c = Some m /\
      let v := c_view Y s in
      res = {| r_x := cma_un P (nth (cv_best v) (cv_valid v) []); r_success := (0 <=? c)%Z;
               r_status := c; r_message := m; r_fun := cv_bestf v; r_nfev := cv_nfev v;
               r_nit := it; r_all := cv_rec v |}.

  (** ** What converge can return *)
  Lemma converge_cases it d mx xm xo h f b sg isg il pc xt ft dg BD :
    match converge it d mx xm xo h f b sg isg il pc xt ft dg BD with
    | None => (it < mx)%Z /\ b <=? ft = false
    | Some c =>
        (c = (-1)%Z /\ (mx <= it)%Z) \/
        ((it < mx)%Z /\
         ((c = 0%Z /\ vnorm (vsub xo xm) <=? xt = true /\ b <? ft = true) \/
          (c = 1%Z /\ b <=? ft = true /\ (vnorm (vsub xo xm) <=? xt) && (b <? ft) = false) \/
          (b <=? ft = false /\
           (c = (-2)%Z \/ c = (-3)%Z \/ c = (-4)%Z \/
            (c = (-5)%Z /\ (il <= it)%Z /\
             vmax (slice (Z.to_nat (it - il)) (Z.to_nat (it + 1)) h)
             - vmin (slice (Z.to_nat (it - il)) (Z.to_nat (it + 1)) h) <? nlit 1 (-10) = true) \/
            c = (-6)%Z \/
            (c = (-7)%Z /\ (2 < it)%Z /\ vmax (f ++ h) - vmin (f ++ h) <? nlit 1 (-12) = true) \/
            c = (-8)%Z))))
    end.
  Proof.
    unfold converge. cbn zeta.
    destruct (mx <=? it)%Z eqn:Hm; [apply Z.leb_le in Hm; left; auto|apply Z.leb_gt in Hm].
    destruct ((vnorm (vsub xo xm) <=? xt) && (b <? ft)) eqn:H0.
    { right. split; [exact Hm|]. left. apply andb_true_iff in H0. tauto. }
    destruct (b <=? ft) eqn:H1.
    { right. split; [exact Hm|]. right; left. auto. }
    assert (HG : forall c, (c = (-2)%Z \/ c = (-3)%Z \/ c = (-4)%Z \/
            (c = (-5)%Z /\ (il <= it)%Z /\
             vmax (slice (Z.to_nat (it - il)) (Z.to_nat (it + 1)) h)
             - vmin (slice (Z.to_nat (it - il)) (Z.to_nat (it + 1)) h) <? nlit 1 (-10) = true) \/
            c = (-6)%Z \/
            (c = (-7)%Z /\ (2 < it)%Z /\ vmax (f ++ h) - vmin (f ++ h) <? nlit 1 (-12) = true) \/
            c = (-8)%Z) ->
       (c = (-1)%Z /\ (mx <= it)%Z) \/
        ((it < mx)%Z /\
         ((c = 0%Z /\ vnorm (vsub xo xm) <=? xt = true /\ b <? ft = true) \/
          (c = 1%Z /\ false = true /\ false = false) \/
          (false = false /\
           (c = (-2)%Z \/ c = (-3)%Z \/ c = (-4)%Z \/
            (c = (-5)%Z /\ (il <= it)%Z /\
             vmax (slice (Z.to_nat (it - il)) (Z.to_nat (it + 1)) h)
             - vmin (slice (Z.to_nat (it - il)) (Z.to_nat (it + 1)) h) <? nlit 1 (-10) = true) \/
            c = (-6)%Z \/
            (c = (-7)%Z /\ (2 < it)%Z /\ vmax (f ++ h) - vmin (f ++ h) <? nlit 1 (-12) = true) \/
            c = (-8)%Z))))).
    { intros c Hc. right. split; [exact Hm|]. right; right. split; [reflexivity|exact Hc]. }
    match goal with |- context [if ?b then Some (-2)%Z else _] => destruct b end; [apply HG; auto|].
    match goal with |- context [if ?b then Some (-3)%Z else _] => destruct b end; [apply HG; auto|].
    match goal with |- context [if ?b then Some (-4)%Z else _] => destruct b end; [apply HG; auto|].
    match goal with |- context [if ?b then Some (-5)%Z else _] => destruct b eqn:H5 end.
    { apply andb_true_iff in H5. destruct H5 as [H5 H5']. apply Z.leb_le in H5. apply HG; auto 10. }
    match goal with |- context [if ?b then Some (-6)%Z else _] => destruct b end; [apply HG; auto 10|].
    match goal with |- context [if ?b then Some (-7)%Z else _] => destruct b eqn:H7 end.
    { apply andb_true_iff in H7. destruct H7 as [H7 H7']. apply Z.ltb_lt in H7. apply HG; auto 10. }
    match goal with |- context [if ?b then Some (-8)%Z else _] => destruct b end; [apply HG; auto 10|].
    auto.
  Qed.

  Lemma converge_message it d mx xm xo h f b sg isg il pc xt ft dg BD c :
    converge it d mx xm xo h f b sg isg il pc xt ft dg BD = Some c -> exists m, message c = Some m.
  Proof.
    intros H. pose proof (converge_cases it d mx xm xo h f b sg isg il pc xt ft dg BD) as Hc.
    rewrite H in Hc.
    destruct Hc as [[-> _]|(_ & [[-> _]|[[-> _]|(_ & [->|[->|[->|[[-> _]|[->|[[-> _]| ->]]]]]])]])];
      eexists; reflexivity.
  Qed.
End CHist.

Section CmaSteps.
  Context {N : Num} {E : Env N}.
  Local Open Scope num_scope.
  Variable P : CMAParams.
  Hypothesis Hmode : ModeOK (cm_mode P).

  Lemma wp_cma_eval X s (Q : vec -> St -> Prop) :
    (forall f s' evs, length f = length X -> tr s' = tr s ++ evs -> cbs evs = [] ->
       Shares (cm_mode P) (length X) f evs -> argbuf s' = argbuf s ->
       (cm_mode P <> Mpi -> exists l, evs = map ok l /\
           Permutation l (combine (map (cma_un P) X) f) /\
           (cm_mode P = Serial -> l = combine (map (cma_un P) X) f)) -> Q f s') ->
    wp (cma_eval P X) Q NF s.
  Proof.
    intros H. unfold cma_eval. apply wp_bind. apply wp_eval_pop; [exact Hmode| |discriminate].
    intros X' f s' evs H1 H2 H3 H4 H5 H6 H7 H8. apply wp_ret. rewrite map_length in H1, H5.
    apply (H f s' evs); auto. intros Hm. destruct (H7 Hm) as [_ Hx]. exact Hx.
  Qed.

  Lemma wp_cma_fitness arx v diagC it s (Q : vec * matrix * PenState -> St -> Prop) :
    (forall raw fit valid pen' s' evs,
       length raw = length arx -> length fit = length arx -> length valid = length arx ->
       tr s' = tr s ++ evs -> cbs evs = [] ->
       Shares (cm_mode P) (length arx) raw evs -> argbuf s' = argbuf s ->
       (cm_mode P <> Mpi -> exists l, evs = map ok l /\
           Permutation l (combine (map (cma_un P) valid) raw) /\
           (cm_mode P = Serial -> l = combine (map (cma_un P) valid) raw)) ->
       FitOf P it v diagC arx valid raw fit pen' -> Q (fit, valid, pen') s') ->
    wp (cma_fitness P arx (cv_xmean v) (cv_xold v) (cv_sigma v) diagC it (cv_pen v)) Q NF s.
  Proof.
    intros H. unfold cma_fitness. destruct (cm_pen P) eqn:Hpen.
    - unfold penalize. cbn zeta. apply wp_bind, wp_cma_eval.
      intros raw s1 evs Hl Ht Hc Hs Hb Hev. rewrite map_length in Hl, Hs.
      set (delta := (_ / _ / _ / _)).
      apply wp_bind.
      assert (HQ : forall delta' hist valid',
         ((delta' = delta /\ delta =? n0 = false /\
           hist = (if pen_valid (cv_pen v) then pen_hist (cv_pen v) else []) /\ valid' = true)
          \/ (delta =? n0 = true /\ hist = pen_hist (cv_pen v) /\ filter (fun x => n0 <? x) hist <> [] /\
              delta' = vmin (filter (fun x => n0 <? x) hist) /\ valid' = pen_valid (cv_pen v))) ->
         wp ((fun x : T * vec * bool =>
             let '(delta, hist, valid) := x in
             let hist := if nN (length hist) <? nZ 20 + nZ 3 * nN (cm_d P) / nN (cm_p P)
                         then hist ++ [delta] else tl hist ++ [delta] in
             let ti := pen_ti (cv_xmean v) in
             let any := existsb (fun b => b) ti in
             let '(w, ini) :=
               if pen_ini (cv_pen v) && any
               then (repeat (nlit 20002 (-4) * e_median hist) (cm_d P), negb (valid && (2 <? it)%Z))
               else (pen_w (cv_pen v), pen_ini (cv_pen v)) in
             let w := if any then pen_grow (cm_d P) (cm_mueff P)
                   (pen_idx (cm_d P) (cm_mueff P) (cv_sigma v) diagC (cv_xmean v) (cv_xold v)) w else w in
             let scale := bnd_scale diagC in
             let fit := map3 (fun f v x => f + penalty v x w scale) raw (map (map clip1) arx) arx in
             ret (fit, map (map clip1) arx, mkPen w hist valid ini)) (delta', hist, valid')) Q NF s1).
      { intros delta' hist valid' Hd. cbn zeta.
        match goal with |- wp (let '(w, ini) := ?c in _) _ _ _ => destruct c as [w ini] eqn:Hw end.
        apply wp_ret. apply (H raw _ _ _ s1 evs); auto.
        - rewrite map3_length, map_length. unfold matrix, vec in *. lia.
        - apply map_length.
        - constructor; [congruence|]. intros _. split; [reflexivity|].
          cbn [pen_w pen_hist pen_valid pen_ini]. split; [reflexivity|].
          exists delta', hist. split; [|split; [reflexivity|]].
          + destruct Hd as [(-> & Hd)|Hd]; [left; auto|right; auto].
          + destruct (pen_ini (cv_pen v)), (existsb (fun b => b) (pen_ti (cv_xmean v))); cbn [andb negb] in *;
              injection Hw as <- <-; split; reflexivity. }
      destruct (delta =? n0) eqn:Hd0.
      + destruct (filter (fun x => n0 <? x) (pen_hist (cv_pen v))) as [|a l] eqn:Hfl.
        * apply wp_raise; discriminate.
        * apply wp_ret. rewrite <- Hfl. apply HQ. right. rewrite Hfl. repeat split. discriminate.
      + destruct (pen_valid (cv_pen v)) eqn:Hv; cbn [negb]; apply wp_ret, HQ; left; rewrite ?Hv; auto.
    - apply wp_bind, wp_cma_eval. intros raw s1 evs Hl Ht Hc Hs Hb Hev. apply wp_ret.
      apply (H raw raw arx (cv_pen v) s1 evs); auto. constructor; [auto|congruence].
  Qed.

  (** ** One generation of CMA-ES *)
  Definition cma_view (s : CMAS) : CV :=
    mkCV (cs_xmean s) (cs_xold s) (cs_sigma s) (cs_pen s) (cs_nfev s) (cs_hist s) (cs_valid s)
         (cs_fit s) (cs_index s) (cs_rec s).

  (** The further equations of a CMA-ES generation. *)
  Definition cma_more (it : Z) (s s' : CMAS) (arx : matrix) : Prop :=
    let n := nN (cm_d P) in
    let sel := map (fun k => nth k arx []) (firstn (cm_mu P) (cs_index s')) in
    cs_xmean s' = vmat (cm_d P) (cm_w P) sel /\
    (let dx := vsub (cs_xmean s') (cs_xmean s) in
     cs_ps s' = cma_ps P s dx /\
     (let cond := cma_cond P (cs_nfev s') (cs_ps s') in
      cs_pc s' = cma_pc P s cond dx /\
      (let C := cov_update (cm_d P) (cma_c1 n (cm_mueff P)) (cma_cc n (cm_mueff P))
                           (cma_cmu n (cm_mueff P)) (cm_w P)
                           (map (fun x => map (fun v => v / cs_sigma s) (vsub x (cs_xmean s))) sel)
                           (cs_pc s') cond (cs_C s) in
       (cs_C s' = C /\ cs_B s' = cs_B s /\ cs_D s' = cs_D s /\ cs_inv s' = cs_inv s) \/
       (cs_C s' = symm (cm_d P) C /\
        exists D B, e_eigh (cs_C s') = Some (D, B) /\
          cs_D s' = map (fun k => nsqrt (nth k D n0)) (e_argsort D) /\
          cs_B s' = map (fun row => map (fun k => nth k row n0) (e_argsort D)) B)))).

  Definition cma_step_post (it : Z) (s : CMAS) (st : St) (r : CMAS * option Z) (st' : St) : Prop :=
    exists evs arx raw,
      tr st' = tr st ++ evs /\ argbuf st' = argbuf st /\
      CGen P it (cma_view s) (cma_view (fst r)) (snd r) evs (mdiag (cs_C s)) arx raw /\
      cma_more it s (fst r) arx.

  Lemma quiet_cma_sample s : quiet (cma_sample P s) (fun X => length X = cm_p P).
  Proof.
    eapply quiet_conseq; [apply (quiet_replicateM _ _ (fun _ => True))|].
    - eapply quiet_bind; [apply quiet_randn_vec|]. intros z _. apply quiet_ret. exact Logic.I.
    - intros X [H _]. exact H.
  Qed.

  Lemma wp_cma_record it valid fit r (Q : option Rec -> St -> Prop) s :
    (forall r', RecW (cm_nout P) (cm_maxiter P) it (map (cma_un P) valid) fit
               (cma_un P (fst (best_row valid fit)), snd (best_row valid fit)) r r' -> Q r' s) ->
    wp (cma_record P it valid fit r) Q NF s.
  Proof. intros H. unfold cma_record. apply wp_rec_write, H. Qed.

  Lemma wp_hist_set it v h (Q : vec -> St -> Prop) s :
    ((it <= cm_maxiter P)%Z -> Q (upd (Z.to_nat (it - 1)) v h) s) -> wp (hist_set P it v h) Q NF s.
  Proof.
    intros H. unfold hist_set. destruct (cm_maxiter P <? it)%Z eqn:Hm; [apply wp_raise; discriminate|].
    apply wp_ret, H. apply Z.ltb_ge, Hm.
  Qed.

  Lemma cma_step_spec it s st : wp (cma_step P it s) (cma_step_post it s st) NF st.
  Proof.
    unfold cma_step. cbn zeta.
    eapply wp_quiet_NF; [apply quiet_cma_sample|]. intros arx s1 Ht1 Hb1 Hl1.
    apply wp_bind. apply (wp_cma_fitness arx (cma_view s)).
    intros raw fit valid pen' s2 evs Hlr Hlf Hlv Ht2 Hc2 Hs2 Hb2 Hev HF.
    apply wp_bind, wp_cma_record. intros r' HR.
    apply wp_bind, wp_hist_set. intros Hit.
    set (sel := map _ (firstn (cm_mu P) (e_argsort fit))).
    apply wp_bind.
    match goal with |- wp (if ?c then _ else _) _ _ _ => destruct c end.
    - match goal with |- context [orelse (e_eigh ?C) _] => destruct (e_eigh C) as [[D B]|] eqn:He end;
        cbn [orelse].
      2: { apply wp_bind, wp_raise; discriminate. }
      apply wp_bind, wp_ret, wp_ret, wp_ret.
      exists evs, arx, raw. split; [congruence|]. split; [congruence|]. cbn [fst snd]. split.
      + constructor; cbn -[converge upd]; auto; try congruence.
        eexists _, _, _. reflexivity.
      + split; [reflexivity|]. cbn zeta. split; [reflexivity|]. split; [reflexivity|]. right.
        split; [reflexivity|]. exists D, B. split; [exact He|split; reflexivity].
    - apply wp_ret, wp_ret.
      exists evs, arx, raw. split; [congruence|]. split; [congruence|]. cbn [fst snd]. split.
      + constructor; cbn -[converge upd]; auto; try congruence.
        eexists _, _, _. reflexivity.
      + split; [reflexivity|]. cbn zeta. split; [reflexivity|]. split; [reflexivity|]. left.
        repeat split; reflexivity.
  Qed.

  (** ** One generation of VD-CMA *)
  Definition vd_view (s : VDS) : CV :=
    mkCV (vs_xmean s) (vs_xold s) (vs_sigma s) (vs_pen s) (vs_nfev s) (vs_hist s) (vs_valid s)
         (vs_fit s) (vs_index s) (vs_rec s).

  Definition vd_more (it : Z) (s s' : VDS) (arx : matrix) : Prop :=
    let n := nN (cm_d P) in
    let mueff := cm_mueff P in
    exists ysel cond,
      (vs_vvec s', vs_dvec s') =
        vd_update vmax vmin (cm_d P) (vd_c1 n mueff) (vd_cmu n mueff) (cm_w P) ysel (vs_pc s') cond
                  (vs_dvec s) (vs_vvec s) (vs_nv2 s) (vs_nv s) (vs_vn s) (vs_vnn s) /\
      (cm_p P < 2 -> vs_inj s = false) /\ vs_inj s' = true /\
      vs_nv2 s' = vdot (vs_vvec s') (vs_vvec s') /\ vs_nv s' = nsqrt (vs_nv2 s') /\
      vs_vn s' = map (fun x => x / vs_nv s') (vs_vvec s') /\ vs_vnn s' = map nsq (vs_vn s').

  Definition vd_step_post (it : Z) (s : VDS) (st : St) (r : VDS * option Z) (st' : St) : Prop :=
    exists evs arx raw,
      tr st' = tr st ++ evs /\ argbuf st' = argbuf st /\
      CGen P it (vd_view s) (vd_view (fst r)) (snd r) evs
           (vd_diagC (cm_d P) (vs_dvec s) (vs_vvec s)) arx raw /\
      vd_more it s (fst r) arx.

  Lemma quiet_vd_sample s :
    quiet (vd_sample P s) (fun X => length X = cm_p P /\ (cm_p P < 2 -> vs_inj s = false)).
  Proof.
    unfold vd_sample. eapply quiet_bind; [apply quiet_replicateM, quiet_randn_vec|].
    intros arz [Hl _]. cbn zeta. destruct (vs_inj s).
    - eapply quiet_bind; [apply quiet_randn_vec|]. intros z _.
      eapply quiet_bind; [apply quiet_raise_if; discriminate|]. cbn beta. intros _ Hp.
      apply quiet_ret. apply Nat.ltb_ge in Hp. split; [|lia].
      rewrite !upd_length, map_length. exact Hl.
    - apply quiet_ret. split; [rewrite map_length; exact Hl|auto].
  Qed.

  Lemma vd_step_spec it s st : wp (vd_step P it s) (vd_step_post it s st) NF st.
  Proof.
    unfold vd_step. cbn zeta.
    eapply wp_quiet_NF; [apply quiet_vd_sample|]. intros ary s1 Ht1 Hb1 [Hl1 Hinj].
    apply wp_bind. apply (wp_cma_fitness _ (vd_view s)).
    intros raw fit valid pen' s2 evs Hlr Hlf Hlv Ht2 Hc2 Hs2 Hb2 Hev HF.
    rewrite map_length in Hlr, Hlf, Hlv, Hs2.
    apply wp_bind, wp_cma_record. intros r' HR.
    apply wp_bind, wp_hist_set. intros Hit.
    destruct (vd_sigma P s (e_argsort fit)) as [[ps sigma] cond] eqn:Hsg.
    match goal with |- wp (let '(vvec, dvec) := ?c in _) _ _ _ =>
      destruct c as [vvec dvec] eqn:Hup end.
    apply wp_ret.
    eexists evs, _, raw. split; [congruence|]. split; [congruence|]. cbn [fst snd]. split.
    - constructor; cbn -[converge upd].
      4: exact Hc2. 4: rewrite <- Hl1; exact Hs2. 4: exact Hev. 4: exact HF. all: try congruence; auto.
      + rewrite map_length. exact Hl1.
      + exact (eq_trans Hlr Hl1).
      + eexists _, _, _. reflexivity.
    - eexists _, cond. cbn. split; [symmetry; exact Hup|]. auto 10.
  Qed.
End CmaSteps.

Section CmaRuns.
  Context {N : Num} {E : Env N}.
  Local Open Scope num_scope.

  (** The parameters of the loop, from the arguments. *)
  Record CMAParamsOf (A : CMAArgs) (P : CMAParams) : Prop := {
    cpo_p : cm_p P = Z.to_nat (a_popsize (caa A));
    cpo_p1 : (1 <= a_popsize (caa A))%Z;
    cpo_d : cm_d P = nd_len (a_bounds (caa A));
    cpo_mu : exists k, ntrunc (caa_muperc A * nZ (a_popsize (caa A))) = Some k /\
                       cm_mu P = Z.to_nat k;
    cpo_w : cm_w P = cma_weights (cm_mu P);
    cpo_mueff : cm_mueff P = cma_mueff (cm_w P);
    cpo_bounds : exists rows, a_bounds (caa A) = D2 2 rows /\
                   cm_xm P = cma_xm (map (fun r => nth 0 r n0) rows) (map (fun r => nth 1 r n0) rows) /\
                   cm_xstd P = cma_xstd (map (fun r => nth 0 r n0) rows) (map (fun r => nth 1 r n0) rows);
    cpo_pen : cm_pen P = match a_constraints (caa A) with None => false | Some _ => true end;
    cpo_cons : a_constraints (caa A) = None \/ a_constraints (caa A) = Some "Penalize"%string;
    cpo_mx : cm_maxiter P = a_maxiter (caa A);
    cpo_mx0 : (0 <= a_maxiter (caa A))%Z;
    cpo_xtol : cm_xtol P = a_xtol (caa A);
    cpo_ftol : cm_ftol P = a_ftol (caa A);
    cpo_sigma : cm_insigma P = caa_sigma A;
    cpo_sigma0 : caa_sigma A <=? nZ 0 = false;
    cpo_muperc : nZ 0 <? caa_muperc A = true /\ caa_muperc A <=? nZ 1 = true;
    cpo_ilim : ntrunc (nZ 10 + nZ 30 * nN (cm_d P) / nZ (a_popsize (caa A))) = Some (cm_ilim P);
    cpo_mode : eval_kind true (a_workers (caa A)) (a_backend (caa A)) = inl (cm_mode P);
    cpo_nout0 : a_return_all (caa A) = false -> cm_nout P = None;
    cpo_nout1 : a_return_all (caa A) = true -> exists n, cm_nout P = Some n /\
                  nceilZ (a_verbosity (caa A) * nZ (a_popsize (caa A))) = Some n }.

  (** The initial mean (cmaes/_cmaes.py:180). *)
  Definition mean_init (A : CMAArgs) (P : CMAParams) (xmean : vec) : Prop :=
    match a_x0 (caa A) with
    | Some x => xmean = standardize (cm_xm P) (cm_xstd P) (nd_vec x) /\
                length (nd_vec x) = cm_d P
    | None => length xmean = cm_d P /\
              Forall (fun x => exists r, x = nZ (-1) + (nZ 1 - nZ (-1)) * fst (e_rand r)) xmean
    end.

  Lemma wp_cma_check A (Q : unit -> St -> Prop) s :
    (forall w, (forall x, a_x0 (caa A) = Some x ->
                 ndim_is 1 x = true /\ nd_len x = nd_len (a_bounds (caa A))) ->
       caa_sigma A <=? nZ 0 = false ->
       nZ 0 <? caa_muperc A = true /\ caa_muperc A <=? nZ 1 = true ->
       a_callback (caa A) <> CbBad -> Q tt (mkSt w (tr s) (argbuf s))) ->
    wp (cma_check A) Q NF s.
  Proof.
    intros H. unfold cma_check. cbn zeta.
    apply wp_bind, wp_raise_if; [discriminate|]. intros _.
    apply wp_bind, wp_raise_if; [discriminate|]. intros _.
    apply wp_bind, wp_raise_if; [discriminate|]. intros H3.
    apply wp_bind, wp_raise_if; [discriminate|]. intros H4.
    apply wp_bind, wp_raise_if; [discriminate|]. intros H5.
    apply wp_seed_and_cb. intros w Hcb. apply H; auto.
    - intros x Hx. rewrite Hx in H3. apply orb_false_iff in H3. destruct H3 as [H3 H3'].
      apply negb_false_iff in H3, H3'. apply Nat.eqb_eq in H3'. auto.
    - unfold outside_open in H5. apply negb_false_iff, andb_true_iff in H5. exact H5.
  Qed.

  Lemma quiet_uniform_eq lo hi :
    quiet (uniform lo hi) (fun x => exists r, x = lo + (hi - lo) * fst (e_rand r)).
  Proof.
    unfold uniform. eapply (quiet_bind _ _ (fun u => exists r, u = fst (e_rand r))).
    - unfold rand. apply quiet_draw. intros r. exists r. reflexivity.
    - cbn beta. intros u (r & Hu). apply quiet_ret. exists r. rewrite <- Hu. reflexivity.
  Qed.

  (** The set-up up to the loop; [P0] misses only ilim and nout. *)
  Lemma wp_cma_setup A (Q : vec * CMAParams -> St -> Prop) s :
    (forall x, a_x0 (caa A) = Some x -> ndim_is 1 x = true /\ nd_len x = nd_len (a_bounds (caa A))) ->
    (forall xmean P0 s', tr s' = tr s -> argbuf s' = argbuf s ->
       mean_init A P0 xmean ->
       (forall nout ilim,
          caa_sigma A <=? nZ 0 = false ->
          nZ 0 <? caa_muperc A = true /\ caa_muperc A <=? nZ 1 = true ->
          (1 <= a_popsize (caa A))%Z -> (0 <= a_maxiter (caa A))%Z ->
          ntrunc (nZ 10 + nZ 30 * nN (nd_len (a_bounds (caa A))) / nZ (a_popsize (caa A))) = Some ilim ->
          (a_return_all (caa A) = false -> nout = None) ->
          (a_return_all (caa A) = true -> exists n, nout = Some n /\
                  nceilZ (a_verbosity (caa A) * nZ (a_popsize (caa A))) = Some n) ->
          CMAParamsOf A (mkCMAParams (cm_p P0) (cm_d P0) (cm_mu P0) (cm_w P0) (cm_mueff P0)
                 (cm_xm P0) (cm_xstd P0) (cm_pen P0) (cm_maxiter P0) (cm_xtol P0) (cm_ftol P0)
                 (cm_insigma P0) ilim (cm_mode P0) nout)) ->
       cm_d P0 = nd_len (a_bounds (caa A)) ->
       cm_maxiter P0 = a_maxiter (caa A) -> cm_insigma P0 = caa_sigma A ->
       Q (xmean, P0) s') ->
    wp (cma_setup A) Q NF s.
  Proof.
    intros Hx0 H. unfold cma_setup, eval_kindM. cbn zeta.
    destruct (eval_kind true (a_workers (caa A)) (a_backend (caa A))) as [mode|e] eqn:Hmode.
    2: { apply wp_bind, wp_raise. unfold eval_kind, wrapper_kind in Hmode.
         destruct (_ && _) in Hmode; try discriminate;
           repeat match type of Hmode with
                  | context [if ?b then _ else _] => destruct b; try discriminate
                  end; injection Hmode as <-; discriminate. }
    apply wp_bind, wp_ret. apply wp_bind, wp_unpack_bounds. intros lower upper rows Hb Hlo Hup.
    apply wp_bind. unfold cma_cons_check.
    assert (HC : forall pen, pen = match a_constraints (caa A) with None => false | Some _ => true end ->
       a_constraints (caa A) = None \/ a_constraints (caa A) = Some "Penalize"%string ->
       wp (xmean <- match a_x0 (caa A) with
             | None => replicateM (nd_len (a_bounds (caa A))) (uniform (nZ (-1)) (nZ 1))
             | Some x => ret (standardize (cma_xm lower upper) (cma_xstd lower upper) (nd_vec x))
             end ;;
           mu <- orelse (ntrunc (caa_muperc A * nZ (a_popsize (caa A)))) ValueError ;;
           ret (xmean, mkCMAParams (Z.to_nat (a_popsize (caa A))) (nd_len (a_bounds (caa A)))
                 (Z.to_nat mu) (cma_weights (Z.to_nat mu)) (cma_mueff (cma_weights (Z.to_nat mu)))
                 (cma_xm lower upper) (cma_xstd lower upper) pen
                 (a_maxiter (caa A)) (a_xtol (caa A)) (a_ftol (caa A)) (caa_sigma A) 0 mode None))
          Q NF s).
    { intros pen Hpen Hcons.
      eapply (wp_quiet_NF _ _ (fun xmean => match a_x0 (caa A) with
        | Some x => xmean = standardize (cma_xm lower upper) (cma_xstd lower upper) (nd_vec x) /\
                    length (nd_vec x) = nd_len (a_bounds (caa A))
        | None => length xmean = nd_len (a_bounds (caa A)) /\
              Forall (fun x => exists r, x = nZ (-1) + (nZ 1 - nZ (-1)) * fst (e_rand r)) xmean
        end)).
      - destruct (a_x0 (caa A)) as [x|] eqn:Hx.
        + apply quiet_ret. split; [reflexivity|]. destruct (Hx0 x eq_refl) as [H1 H2].
          destruct x; try discriminate. exact H2.
        + apply quiet_replicateM, quiet_uniform_eq.
      - intros xmean s1 Ht1 Hb1 Hxm.
        destruct (ntrunc (caa_muperc A * nZ (a_popsize (caa A)))) as [mu|] eqn:Hmu; cbn [orelse].
        2: { apply wp_bind, wp_raise; discriminate. }
        apply wp_bind, wp_ret, wp_ret. apply H; auto.
        intros nout ilim H1 H2 H3 H4 H5 H6 H7. constructor; cbn; auto.
        + exists mu; auto.
        + exists rows. rewrite <- Hlo, <- Hup. auto. }
    destruct (a_constraints (caa A)) as [c|] eqn:Hc.
    - destruct (String.eqb c "Penalize") eqn:Hce; [|apply wp_raise; discriminate].
      apply String.eqb_eq in Hce. subst c. apply wp_ret, HC; auto.
    - apply wp_ret, HC; auto.
  Qed.

  Lemma wp_cma_alloc a (Q : option Z * Z -> St -> Prop) s :
    (forall nout ilim, (1 <= a_popsize a)%Z -> (0 <= a_maxiter a)%Z ->
       ntrunc (nZ 10 + nZ 30 * nN (nd_len (a_bounds a)) / nZ (a_popsize a)) = Some ilim ->
       (a_return_all a = false -> nout = None) ->
       (a_return_all a = true -> exists n, nout = Some n /\
                  nceilZ (a_verbosity a * nZ (a_popsize a)) = Some n) ->
       Q (nout, ilim) s) -> wp (cma_alloc a) Q NF s.
  Proof.
    intros H. unfold cma_alloc. cbn zeta. apply wp_bind, wp_rec_alloc. intros nout Hn0 Hn1.
    apply wp_bind, wp_raise_if; [discriminate|]. intros H1.
    apply wp_bind, wp_raise_if; [discriminate|]. intros H2.
    apply wp_bind, wp_raise_if; [discriminate|]. intros H3.
    apply Z.ltb_ge in H1, H3. apply Z.eqb_neq in H2.
    destruct (ntrunc _) as [il|] eqn:Hil; cbn [orelse]; [|apply wp_bind, wp_raise; discriminate].
    apply wp_bind, wp_ret, wp_ret. apply H; auto; try lia.
    intros Hr. destruct (Hn1 Hr) as (n & H4 & H5 & _). exists n; auto.
  Qed.

  (** ** The loop *)
  Lemma cdrive_rule (Y : CSys) (P : CMAParams) (cb : bool) (D : Drv (c_S Y)) s0 st0 fl
      (a0 : option matrix) :
    (forall it s st,
        wp (d_step D it s)
           (fun r st' => exists evs arx raw,
              tr st' = tr st ++ evs /\ argbuf st' = argbuf st /\
              CGen P it (c_view Y s) (c_view Y (fst r)) (snd r) evs (c_diagC Y s) arx raw /\
              c_more Y it s (fst r) arx) NF st) ->
    (forall it s st, d_post D it s st = (inl s, st)) ->
    (forall s, d_pop D s = map (cma_un P) (cv_valid (c_view Y s))) ->
    (forall it s, cb_state D it s = c_state P it (c_view Y s)) ->
    CHist Y P cb 0 s0 None [] -> tr st0 = [] -> argbuf st0 = a0 ->
    Z.to_nat (cm_maxiter P) < fl ->
    wp (drive D cb fl 0 s0)
       (fun r st' => CRunOf Y P cb r (tr st') /\ argbuf st' = a0) NF st0.
  Proof.
    intros Hstep Hpost Hpop Hcbs Hi Ht Hb Hfl.
    pose (I := fun (it : Z) (s : c_S Y) (st : St) => CHist Y P cb it s None (tr st) /\ argbuf st = a0).
    pose (J := fun (it : Z) (s : c_S Y) (c : option Z) (st : St) =>
       (CHist Y P cb it s c (tr st ++ ccbe P cb it (c_view Y s)) /\
        (forall z, c = Some z -> exists m, message z = Some m)) /\ argbuf st = a0).
    pose (K := fun (it : Z) (s : c_S Y) (c : option Z) (st : St) =>
       (CHist Y P cb it s c (tr st) /\
        (forall z, c = Some z -> exists m, message z = Some m)) /\ argbuf st = a0).
    eapply wp_post; [apply (drive_rule D cb (cm_maxiter P) I J K NF)|].
    - intros it s st [HH Hba].
      eapply wp_post; [apply Hstep|].
      intros [s' c] st' (evs & arx & raw & Ht' & Hb' & HG & Hm). cbn [fst snd] in *.
      split; [split; [split|congruence]|].
      + rewrite Ht', <- app_assoc. eapply CHist_step; eauto.
      + intros z ->. destruct (cg_status _ _ _ _ _ _ _ _ _ HG) as (pc & dg & BD & Hst).
        symmetry in Hst. apply converge_message in Hst. exact Hst.
      + intros ->. destruct (cg_status _ _ _ _ _ _ _ _ _ HG) as (pc & dg & BD & Hst).
        match type of Hst with _ = converge ?a1 ?a2 ?a3 ?a4 ?a5 ?a6 ?a7 ?a8 ?a9 ?b1 ?b2 ?b3 ?b4 ?b5 ?b6 ?b7 =>
          pose proof (converge_cases a1 a2 a3 a4 a5 a6 a7 a8 a9 b1 b2 b3 b4 b5 b6 b7) as Hc end.
        rewrite <- Hst in Hc. apply Hc.
    - intros it s c st Hcb [[HH Hm] Hba]. split; [split|]; auto. subst cb. unfold ccbe in HH.
      rewrite app_nil_r in HH. exact HH.
    - intros it s c w w' t b Hcb [[HH Hm] Hba]. split; [split|]; auto. subst cb. cbn [tr] in *.
      unfold ccbe in HH. rewrite Hpop, Hcbs. exact HH.
    - intros; discriminate.
    - intros it s st [[HH _] Hba]. unfold wp. rewrite Hpost. split; auto.
    - intros it s c st [[_ Hm] _]. apply Hm. reflexivity.
    - split; [rewrite Ht; exact Hi|exact Hb].
    - left. lia.
    - intros r st' (it' & s' & c & m & Hit & [[HH _] Hba] & Hm & ->). split; [|exact Hba].
      exists it', s', c, m. split; [exact HH|]. split; [exact Hit|]. split; [exact Hm|].
      cbn zeta. pose proof (Hcbs it' s') as He. unfold cb_state, c_state in He.
      injection He as Hx Hf Hn Hr. rewrite Hx, Hf, Hn, Hr. reflexivity.
  Qed.

  (** ** CMA-ES *)
  Definition cma_sys (A : CMAArgs) (P : CMAParams) : CSys :=
    mkCSys CMAS cma_view (fun s => mdiag (cs_C s))
      (fun s => mean_init A P (cs_xmean s) /\ cs_xold s = e_empty (cm_d P) /\
                cs_pc s = repeat n0 (cm_d P) /\ cs_ps s = repeat n0 (cm_d P) /\
                cs_B s = eye (cm_d P) /\ cs_D s = repeat n1 (cm_d P) /\ cs_C s = eye (cm_d P) /\
                cs_inv s = eye (cm_d P))
      (cma_more P).

  Lemma cmaes_run A w a0 :
    (forall mode, eval_kind true (a_workers (caa A)) (a_backend (caa A)) = inl mode -> ModeOK mode) ->
    wp (cmaes_minimize A)
       (fun res st' => exists P, CMAParamsOf A P /\
          CRunOf (cma_sys A P) P (has_cb (caa A)) res (tr st') /\ argbuf st' = a0) NF (mkSt w [] a0).
  Proof.
    intros HM. unfold cmaes_minimize. apply wp_bind, wp_cma_check. intros w1 Hx0 Hsg Hmp Hcb.
    unfold cmaes. cbn zeta. apply wp_bind, wp_cma_setup; [exact Hx0|].
    intros xmean P0 s1 Ht1 Hb1 Hxm HP Hd Hmx Hisg. cbn [tr argbuf] in Ht1, Hb1.
    apply wp_bind, wp_cma_alloc. intros nout ilim H1 H2 H3 H4 H5.
    specialize (HP nout ilim Hsg Hmp H1 H2 H3 H4 H5).
    match goal with |- wp (drive (cma_drv ?P) _ _ _ ?s) _ _ _ => set (P' := P) in *; set (s0 := s) end.
    eapply wp_post; [apply (cdrive_rule (cma_sys A P') P' (has_cb (caa A)) (cma_drv P') s0 s1 _ a0)|].
    - intros it s st. apply cma_step_spec. apply HM. exact (cpo_mode _ _ HP).
    - reflexivity.
    - reflexivity.
    - reflexivity.
    - constructor; try reflexivity.
      + cbn. split; [exact Hxm|]. do 6 (split; [reflexivity|]). reflexivity.
      + cbn. rewrite Hmx. reflexivity.
      + cbn. symmetry. exact Hisg.
    - exact Ht1.
    - exact Hb1.
    - cbn. unfold fuel. lia.
    - intros r st' [HR Hb]. exists P'. split; [exact HP|]. split; [exact HR|exact Hb].
  Qed.

  (** ** VD-CMA *)
  Definition vd_sys (A : CMAArgs) (P : CMAParams) : CSys :=
    mkCSys VDS vd_view (fun s => vd_diagC (cm_d P) (vs_dvec s) (vs_vvec s))
      (fun s => mean_init A P (vs_xmean s) /\ vs_xold s = e_empty (cm_d P) /\
                vs_pc s = repeat n0 (cm_d P) /\ vs_dvec s = repeat n1 (cm_d P) /\
                length (vs_vvec s) = cm_d P /\ vs_inj s = false /\
                vs_nv2 s = vdot (vs_vvec s) (vs_vvec s) /\ vs_nv s = nsqrt (vs_nv2 s) /\
                vs_vn s = map (fun x => x / vs_nv s) (vs_vvec s) /\ vs_vnn s = map nsq (vs_vn s))
      (vd_more P).

  Lemma vdcma_run A w a0 :
    (forall mode, eval_kind true (a_workers (caa A)) (a_backend (caa A)) = inl mode -> ModeOK mode) ->
    wp (vdcma_minimize A)
       (fun res st' => exists P, CMAParamsOf A P /\
          CRunOf (vd_sys A P) P (has_cb (caa A)) res (tr st') /\ argbuf st' = a0) NF (mkSt w [] a0).
  Proof.
    intros HM. unfold vdcma_minimize. apply wp_bind, wp_cma_check. intros w1 Hx0 Hsg Hmp Hcb.
    unfold vdcma. cbn zeta. apply wp_bind, wp_cma_setup; [exact Hx0|].
    intros xmean P0 s1 Ht1 Hb1 Hxm HP Hd Hmx Hisg. cbn [tr argbuf] in Ht1, Hb1.
    eapply wp_quiet_NF; [apply quiet_randn_vec|]. intros z s2 Ht2 Hb2 Hz.
    apply wp_bind, wp_cma_alloc. intros nout ilim H1 H2 H3 H4 H5.
    specialize (HP nout ilim Hsg Hmp H1 H2 H3 H4 H5).
    match goal with |- wp (drive (vd_drv ?P) _ _ _ ?s) _ _ _ => set (P' := P) in *; set (s0 := s) end.
    eapply wp_post; [apply (cdrive_rule (vd_sys A P') P' (has_cb (caa A)) (vd_drv P') s0 s2 _ a0)|].
    - intros it s st. cbn [d_step vd_drv].
      eapply wp_post; [exact (vd_step_spec P' (HM _ (cpo_mode _ _ HP)) it s st)|].
      intros r st' Hr. exact Hr.
    - reflexivity.
    - reflexivity.
    - reflexivity.
    - constructor; try reflexivity.
      + cbn. split; [exact Hxm|]. do 3 (split; [reflexivity|]).
        split; [rewrite map_length; exact Hz|]. do 4 (split; [reflexivity|]). reflexivity.
      + cbn. rewrite Hmx. reflexivity.
      + cbn. symmetry. exact Hisg.
    - congruence.
    - congruence.
    - cbn. unfold fuel. lia.
    - intros r st' [HR Hb]. exists P'. split; [exact HP|]. split; [exact HR|exact Hb].
  Qed.
End CmaRuns.
