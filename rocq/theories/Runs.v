(** From the programs to histories: every returned result of de, cpso/pso and na comes from a
    history, and no run gets stuck in its loop. *)
From Verif Require Import Base Num Env Common DE CPSO NA Hoare EvalRules Gen Steps Hist.

Section Checks.
  Context {N : Num} {E : Env N}.

  (** What validation guarantees (de/_de.py:109-126 and the same elsewhere). *)
  Record PopArgsOK (a : Args) : Prop := {
    pao_callable : a_callable a = true;
    pao_bounds : ndim_is 2 (a_bounds a) = true;
    pao_x0 : forall x, a_x0 a = Some x ->
             ndim_is 2 x = true /\ nd_cols x = nd_len (a_bounds a) /\
             Z.of_nat (nd_len x) = a_popsize a;
    pao_pop : (2 <= a_popsize a)%Z }.

  Lemma wp_check_pop a (Q : unit -> St -> Prop) s :
    (PopArgsOK a -> Q tt s) -> wp (check_pop a) Q NF s.
  Proof.
    intros H. unfold check_pop.
    apply wp_bind, wp_raise_if; [discriminate|]. intros H1.
    apply wp_bind, wp_raise_if; [discriminate|]. intros H2.
    apply wp_bind, wp_raise_if; [discriminate|]. intros H3.
    apply wp_bind, wp_raise_if; [discriminate|]. intros H4.
    apply wp_raise_if; [discriminate|]. intros H5.
    apply H. constructor.
    - apply negb_false_iff, H1.
    - apply negb_false_iff, H2.
    - intros x Hx. rewrite Hx in H3, H5.
      apply orb_false_iff in H3. destruct H3 as [H3 H3'].
      apply negb_false_iff in H3, H3', H5. apply Nat.eqb_eq in H3'. apply Z.eqb_eq in H5. auto.
    - apply Z.ltb_ge, H4.
  Qed.

  Lemma wp_seed o (Q : unit -> St -> Prop) X s :
    (forall w, Q tt (mkSt w (tr s) (argbuf s))) -> wp (seed o) Q X s.
  Proof.
    intros H. destruct o; cbn; unfold wp, seed, ret; [apply H|destruct s; apply H].
  Qed.
  Lemma wp_seed_and_cb a (Q : unit -> St -> Prop) s :
    (forall w, a_callback a <> CbBad -> Q tt (mkSt w (tr s) (argbuf s))) ->
    wp (seed_and_cb a) Q NF s.
  Proof.
    intros H. unfold seed_and_cb. apply wp_bind, wp_seed. intros w.
    apply wp_raise_if; [discriminate|]. intros Hc. apply H. intros Heq; rewrite Heq in Hc; discriminate.
  Qed.

  Lemma eval_kind_async sync workers backend mode :
    eval_kind sync workers backend = inl mode -> sync = false -> mode = Serial.
  Proof.
    unfold eval_kind, wrapper_kind. intros H ->.
    destruct (_ && _); congruence.
  Qed.

  (** A rectangular array (what every ndarray is). *)
  Definition nd_wf (x : nd) : Prop :=
    match x with D2 c m => Forall (fun r : vec => length r = c) m | _ => True end.

  Lemma wp_unpack_bounds b (Q : vec * vec -> St -> Prop) s :
    (forall lower upper rows, b = D2 2 rows -> lower = map (fun r => nth 0 r n0) rows ->
        upper = map (fun r => nth 1 r n0) rows -> Q (lower, upper) s) ->
    wp (unpack_bounds b) Q NF s.
  Proof.
    intros H. destruct b as [x|v|c m]; cbn; try (apply wp_raise; discriminate).
    destruct c as [|[|[|c]]]; try (apply wp_raise; discriminate).
    apply wp_ret. eapply H; reflexivity.
  Qed.

  Lemma wp_rec_alloc ra v p mx (Q : option Z -> St -> Prop) s :
    (forall nout, (ra = false -> nout = None) ->
        (ra = true -> exists n, nout = Some n /\ nceilZ (nmul v (nZ p)) = Some n /\ (0 <= mx)%Z) ->
        Q nout s) ->
    wp (rec_alloc ra v p mx) Q NF s.
  Proof.
    intros H. unfold rec_alloc. destruct ra.
    - unfold rec_nout. destruct (nceilZ (nmul v (nZ p))) as [n|] eqn:Hn; cbn [orelse].
      + apply wp_bind, wp_ret. destruct (mx <? 0)%Z eqn:Hm; [apply wp_raise; discriminate|].
        apply wp_ret, H; [discriminate|]. intros _. exists n. apply Z.ltb_ge in Hm; auto.
      + apply wp_bind, wp_raise, int_exn_fuel.
    - apply wp_ret, H; [auto|discriminate].
  Qed.
End Checks.

Section DERun.
  Context {N : Num} {E : Env N}.

  (** The parameters of the loop, from the arguments. *)
  Record DEParamsOf (A : DEArgs) (sync : bool) (P : DEParams) : Prop := {
    dpo_sync : sync = is_sync (dea_updating A) (dea A);
    dpo_F : de_F P = dea_mutation A;
    dpo_CR : de_CR P = dea_recombination A;
    dpo_strat : strategy_map (dea_strategy A) = Some (de_strat P);
    dpo_con : de_cons_map (a_constraints (dea A)) = Some (de_con P);
    dpo_p : Z.of_nat (de_p P) = a_popsize (dea A);
    dpo_p2 : 2 <= de_p P;
    dpo_d : de_d P = nd_len (a_bounds (dea A));
    dpo_bounds : exists rows, a_bounds (dea A) = D2 2 rows /\
                   de_lower P = map (fun r => nth 0 r n0) rows /\
                   de_upper P = map (fun r => nth 1 r n0) rows;
    dpo_mx : de_maxiter P = a_maxiter (dea A);
    dpo_xtol : de_xtol P = a_xtol (dea A);
    dpo_ftol : de_ftol P = a_ftol (dea A);
    dpo_mode : eval_kind sync (a_workers (dea A)) (a_backend (dea A)) = inl (de_mode P);
    dpo_nout0 : a_return_all (dea A) = false -> de_nout P = None;
    dpo_nout1 : a_return_all (dea A) = true -> exists n, de_nout P = Some n /\
                  nceilZ (nmul (a_verbosity (dea A)) (nZ (a_popsize (dea A)))) = Some n /\
                  (0 <= a_maxiter (dea A))%Z;
    dpo_alias : de_alias P = match a_x0 (dea A) with Some _ => a_x0_array (dea A) | None => false end;
    dpo_args : PopArgsOK (dea A) }.

  Definition de_H (P : DEParams) (sync cb : bool) (C0 C : vec -> Prop)
      (TR : nat -> matrix -> vec -> vec -> Prop) : HParams := {|
    h_view := fun x => x; h_mode := de_mode P; h_sync := sync; h_mx := de_maxiter P;
    h_xtol := de_xtol P; h_ftol := de_ftol P; h_p := de_p P; h_cb := cb; h_nout := de_nout P;
    h_pop0 := fun X => X; h_pop := fun q _ => qx q; h_recp := fun q _ => qx q;
    h_recb := fun q _ cf => best_row (qx q) cf;
    h_C0 := C0; h_C := DETrials P sync C TR; h_B := fun _ q q1 => q1 = q |}.

  (** What is needed of the candidate generation: kept points satisfy [CX], candidates [C]. *)
  Record DEGood (P : DEParams) (C CX : vec -> Prop) (TR : nat -> matrix -> vec -> vec -> Prop)
    : Prop := {
    dg_CX : forall u, C u -> CX u;
    dg_B : de_mode P = Mpi -> forall n U, Forall C U -> Forall C (e_bcast n U);
    dg_cands : forall (r1 X : matrix) gb,
      length r1 = de_p P -> Forall (draws (de_d P)) r1 ->
      length X = de_p P -> Forall CX X -> CX gb ->
      quiet (de_cands P r1 X gb) (fun U => length U = de_p P /\ Forall C U /\
                                   forall i, i < de_p P -> TR i X gb (nth i U []));
    dg_cand1 : forall (r1 : vec) i (X : matrix) gb,
      i < de_p P -> draws (de_d P) r1 -> length X = de_p P -> Forall CX X -> CX gb ->
      quiet (de_cand1 P r1 i X gb) (fun u => C u /\ TR i X gb u) }.

  Lemma de_run A (C0 C CX : vec -> Prop) (TR : nat -> matrix -> vec -> vec -> Prop) w a0 :
    let a := dea A in
    (forall mode, eval_kind (is_sync (dea_updating A) a) (a_workers a) (a_backend a) = inl mode ->
                  ModeOK mode) ->
    (forall P, DEParamsOf A (is_sync (dea_updating A) a) P -> DEGood P C CX TR) ->
    (forall u, C0 u -> CX u) ->
    (forall n U, Forall C0 U -> Forall C0 (e_bcast n U)) ->
    match a_x0 a with
    | Some x => Forall C0 (nd_rows x)
    | None => forall rows, a_bounds a = D2 2 rows ->
        quiet (lhs (Z.to_nat (a_popsize a)) (nd_len (a_bounds a))
                   (map (fun r => nth 0 r n0) rows) (map (fun r => nth 1 r n0) rows))
              (fun X => length X = Z.to_nat (a_popsize a) /\ Forall C0 X)
    end ->
    wp (de_minimize A)
       (fun res st' => exists P sync, DEParamsOf A sync P /\
          RunOf (de_H P sync (has_cb a) C0 C TR) res (tr st')
                (fun q pop => argbuf st' = if de_alias P then Some pop else a0)) NF (mkSt w [] a0).
  Proof.
    intros a HM HG HC0 HBC0 Hx0. unfold de_minimize. fold a.
    apply wp_bind, wp_check_pop. intros Hargs.
    apply wp_bind, wp_raise_if; [discriminate|]. intros _.
    apply wp_bind, wp_raise_if; [discriminate|]. intros _.
    apply wp_bind. unfold check_updating. apply wp_raise_if; [discriminate|]. intros _.
    destruct (strategy_map (dea_strategy A)) as [strat|] eqn:Hst; cbn [orelse].
    2: { apply wp_bind, wp_raise; discriminate. }
    apply wp_bind, wp_ret. apply wp_bind, wp_seed_and_cb. intros w1 Hcb. cbn [tr argbuf].
    set (sync := is_sync (dea_updating A) a) in *.
    unfold de, eval_kindM.
    destruct (eval_kind sync (a_workers a) (a_backend a)) as [mode|e] eqn:Hmode.
    2: { apply wp_bind, wp_raise. unfold eval_kind, wrapper_kind in Hmode.
         destruct (_ && _) in Hmode; destruct sync; try discriminate;
           repeat match type of Hmode with
                  | context [if ?b then _ else _] => destruct b; try discriminate
                  end; injection Hmode as <-; discriminate. }
    apply wp_bind, wp_ret. apply wp_bind, wp_unpack_bounds. intros lower upper rows Hb Hlo Hup.
    destruct (de_cons_map (a_constraints a)) as [con|] eqn:Hcon; cbn [orelse].
    2: { apply wp_bind, wp_raise; discriminate. }
    apply wp_bind, wp_ret. cbn zeta.
    set (p := Z.to_nat (a_popsize a)) in *.
    set (d := nd_len (a_bounds a)) in *.
    assert (Hpz : Z.of_nat p = a_popsize a) by (unfold p; pose proof (pao_pop a Hargs); lia).
    assert (Hp2 : 2 <= p) by (pose proof (pao_pop a Hargs); lia).
    (* initial population *)
    assert (HX0 : quiet (match a_x0 a with Some x => ret (nd_rows x) | None => lhs p d lower upper end)
                        (fun X => length X = p /\ Forall C0 X)).
    { destruct (a_x0 a) as [x|] eqn:Hx.
      - apply quiet_ret. split; [|exact Hx0].
        destruct (pao_x0 a Hargs x Hx) as (H1 & H2 & H3).
        destruct x; try discriminate. cbn [nd_len nd_rows] in *. lia.
      - rewrite Hlo, Hup. apply Hx0, Hb. }
    eapply wp_quiet_NF; [exact HX0|]. intros X s1 Ht1 Hb1 [HX HCX0]. cbn [tr argbuf] in Ht1, Hb1.
    apply wp_bind, wp_raise_if; [discriminate|]. intros _.
    apply wp_bind, wp_eval_pop; [auto| |discriminate].
    intros X' f s2 evs Hf HX' Ht2 Hc2 Hs2 Hb2 Hev Hbc.
    assert (HlX' : length X' = p).
    { apply (f_equal (@length nat)) in HX'. rewrite !map_length in HX'. rewrite <- HX; exact HX'. }
    assert (Hlf : length f = p) by (rewrite <- HX; exact Hf).
    assert (Hsr : Shares mode p f evs) by (rewrite <- HX; exact Hs2).
    assert (HCX' : Forall C0 X').
    { destruct mode; try (destruct Hev as [-> _]; [discriminate|exact HCX0]).
      destruct (Hbc eq_refl) as [n ->]. apply HBC0; auto. }
    set (alias := match a_x0 a with Some _ => a_x0_array a | None => false end).
    set (is_list := match a_x0 a with Some _ => negb (a_x0_array a) | None => false end).
    assert (Hset : forall (k : M OptRes) (Q : OptRes -> St -> Prop),
      (forall s3, tr s3 = tr s2 -> argbuf s3 = (if alias then Some X' else argbuf s2) -> wp k Q NF s3) ->
      wp (when alias (set_arg X') ;;; k) Q NF s2).
    { intros k Q Hk. apply wp_bind, wp_when; intros Ha.
      - apply wp_set_arg. apply Hk; cbn; rewrite ?Ha; auto.
      - apply Hk; rewrite ?Ha; auto. }
    apply Hset. intros s3 Ht3 Hb3.
    apply wp_bind, wp_np_argmin. intros Hfne.
    apply wp_bind, wp_rec_alloc. intros nout Hn0 Hn1.
    apply wp_bind, wp_rec_write. intros r0 Hr0.
    set (P := mkDEParams _ _ _ _ _ _ _ _ _ _ _ _ _ _ _).
    assert (HP : DEParamsOf A sync P).
    { constructor; cbn; auto. exists rows; auto. }
    pose proof (HG P HP) as HGP.
    set (s := mkDES X' _ _ _ _ _).
    set (Hh := de_H P sync (has_cb a) C0 C TR).
    assert (Hinit : Hist Hh 1 (des_q s) r0 None (des_X s)
                         (evs ++ cbe Hh 1 (des_q s) r0 (des_X s))).
    { change (des_X s) with (h_pop0 Hh X').
      apply (Hist_init Hh X X' f evs r0); cbn; auto.
      intros Hm. destruct (Hev Hm) as [-> Hl]. rewrite map_id. split; [reflexivity|exact Hl]. }
    assert (Hsh : de_shape P CX s).
    { repeat split; cbn; auto.
      - eapply Forall_impl; [|exact HCX']; auto.
      - apply HC0. rewrite Forall_nth' in HCX'. apply HCX'.
        eapply Nat.lt_le_trans; [apply argmin_lt; exact Hfne|].
        exact (Nat.eq_le_incl _ _ (eq_trans Hlf (eq_sym HlX'))). }
    assert (Ht3' : tr s3 = evs) by (rewrite Ht3, Ht2, Ht1; reflexivity).
    assert (Hb3' : argbuf s3 = if alias then Some X' else a0)
      by (rewrite Hb3, Hb2, Hb1; reflexivity).
    pose (Inv := fun (it : Z) (s : DES) (st : St) =>
       Hist Hh it (des_q s) (des_rec s) None (des_X s) (tr st) /\ de_shape P CX s /\
       argbuf st = (if alias then Some (des_X s) else a0)).
    pose (J := fun (it : Z) (s : DES) (c : option Z) (st : St) =>
       Hist Hh it (des_q s) (des_rec s) c (des_X s)
            (tr st ++ cbe Hh it (des_q s) (des_rec s) (des_X s)) /\ de_shape P CX s /\
       argbuf st = (if alias then Some (des_X s) else a0)).
    pose (K := fun (it : Z) (s : DES) (c : option Z) (st : St) =>
       Hist Hh it (des_q s) (des_rec s) c (des_X s) (tr st) /\ de_shape P CX s /\
       argbuf st = (if alias then Some (des_X s) else a0)).
    assert (Hloop : forall st, Inv 1%Z s st ->
       wp (drive (de_drv P sync) (has_cb a) (fuel (a_maxiter a)) 1 s)
       (fun res st' => exists P sync, DEParamsOf A sync P /\
          RunOf (de_H P sync (has_cb a) C0 C TR) res (tr st')
                (fun q pop => argbuf st' = if de_alias P then Some pop else a0)) NF st).
    { intros st Hi.
      eapply wp_post; [apply (drive_rule (de_drv P sync) (has_cb a) (de_maxiter P) Inv J K NF)|].
      - intros it sx sty (HH & Hshx & Hbx).
        eapply wp_post; [apply (de_step_spec P sync C CX TR)|].
        + cbn; lia.
        + cbn; auto.
        + cbn. apply (eval_kind_async _ _ _ _ Hmode).
        + apply (dg_CX _ _ _ _ HGP).
        + apply (dg_B _ _ _ _ HGP).
        + apply (dg_cands _ _ _ _ HGP).
        + apply (dg_cand1 _ _ _ _ HGP).
        + exact Hshx.
        + cbn. intros Ha; rewrite Ha in Hbx; exact Hbx.
        + intros [s' c] st' (evs' & cand & cf & Ht & HGs & HCc & Hpf & Hsh' & HR & Hba).
          cbn [fst snd] in *. split.
          * split; [|split; [exact Hsh'|]].
            -- rewrite Ht, <- app_assoc.
               change (des_X s') with (h_pop Hh (des_q s') cand).
               eapply Hist_step; [exact HH|reflexivity|exact HGs|exact HCc|exact HR].
            -- unfold de_arg in Hba. cbn in Hba. destruct alias; [exact Hba|congruence].
          * intros ->. apply (gen_status _ _ _ _ _ _ _ _ _ _ (gs_next _ _ _ _ _ _ _ _ _ _ _ _ _ _ HGs)).
      - intros it sx c sty Hcbf (HH & Hr). split; [|exact Hr].
        unfold cbe in HH. cbn [h_cb] in HH. cbn in HH. rewrite Hcbf, app_nil_r in HH. exact HH.
      - intros it sx c wx wx' t b Hcbt (HH & Hr). split; [|exact Hr].
        unfold cbe in HH. cbn in HH. rewrite Hcbt in HH. cbn. exact HH.
      - intros; discriminate.
      - intros it sx sty HK. apply wp_ret. exact HK.
      - intros it sx c sty (HH & _). apply message_pop.
        apply Hist_status in HH. destruct HH as (_ & _ & [H|[H|[H _]]]); auto.
      - exact Hi.
      - left. unfold fuel. cbn. lia.
      - intros res st' (it' & s' & c & m & Hit & (HH & Hsh' & Hba) & Hm & ->).
        exists P, sync. split; [exact HP|].
        exists it', (des_q s'), (des_rec s'), c, m, (des_X s').
        split; [exact HH|]. split; [exact Hm|]. split; [exact Hba|reflexivity]. }
    apply wp_bind, wp_when; intros Hcbv.
    - destruct s3 as [w3 t3 b3]. cbn in Ht3', Hb3'. apply wp_call_cb; [|discriminate].
      intros w4 _. apply Hloop. split; [|split; [exact Hsh|exact Hb3']].
      unfold cbe in Hinit. cbn in Hinit. rewrite Hcbv in Hinit. cbn. rewrite Ht3'. exact Hinit.
    - apply Hloop. split; [|split; [exact Hsh|exact Hb3']].
      unfold cbe in Hinit. cbn in Hinit. rewrite Hcbv, app_nil_r in Hinit. rewrite Ht3'. exact Hinit.
  Qed.
End DERun.

Section PSORun.
  Context {N : Num} {E : Env N}.

  Record PSOParamsOf (A : CPSOArgs) (sync : bool) (P : PSOParams) : Prop := {
    ppo_sync : sync = is_sync (pa_updating A) (pa A);
    ppo_w : ps_w P = pa_inertia A;
    ppo_c1 : ps_c1 P = pa_cognitivity A;
    ppo_c2 : ps_c2 P = pa_sociability A;
    ppo_gamma : ps_gamma P = truthy (pa_competitivity A);
    ppo_delta : ps_delta P = pso_delta (a_popsize (pa A)) (a_maxiter (pa A));
    ppo_con : pso_cons_map (a_constraints (pa A)) = Some (ps_con P);
    ppo_p : Z.of_nat (ps_p P) = a_popsize (pa A);
    ppo_p2 : 2 <= ps_p P;
    ppo_d : ps_d P = nd_len (a_bounds (pa A));
    ppo_bounds : exists rows, a_bounds (pa A) = D2 2 rows /\
                   ps_lower P = map (fun r => nth 0 r n0) rows /\
                   ps_upper P = map (fun r => nth 1 r n0) rows;
    ppo_mx : ps_maxiter P = a_maxiter (pa A);
    ppo_xtol : ps_xtol P = a_xtol (pa A);
    ppo_ftol : ps_ftol P = a_ftol (pa A);
    ppo_mode : eval_kind sync (a_workers (pa A)) (a_backend (pa A)) = inl (ps_mode P);
    ppo_nout0 : a_return_all (pa A) = false -> ps_nout P = None;
    ppo_nout1 : a_return_all (pa A) = true -> exists n, ps_nout P = Some n /\
                  nceilZ (nmul (a_verbosity (pa A)) (nZ (a_popsize (pa A)))) = Some n /\
                  (0 <= a_maxiter (pa A))%Z;
    ppo_alias : ps_alias P = match a_x0 (pa A) with Some _ => a_x0_array (pa A) | None => false end
                             && negb sync;
    ppo_args : PopArgsOK (pa A) }.

  (** What a restart does to the kept solutions. *)
  Definition pso_B (P : PSOParams) (CP : vec -> Prop) (it : Z) (q q1 : Q4) : Prop :=
    q1 = q \/
    exists g nw Y, ps_gamma P = Some g /\ restart_count (ps_p P) it (ps_maxiter P) g = Some nw /\
      (0 < nw)%Z /\ length Y = length (worst (qf q) (Z.to_nat nw)) /\
      qx q1 = upd_many (worst (qf q) (Z.to_nat nw)) Y (qx q) /\
      qf q1 = upd_many (worst (qf q) (Z.to_nat nw)) (repeat (nlit 1 30) (Z.to_nat nw)) (qf q) /\
      qb q1 = qb q /\ qbf q1 = qbf q.

  Definition pso_H (P : PSOParams) (sync cb : bool) (C0 C CP : vec -> Prop) : HParams := {|
    h_view := fun x => x; h_mode := ps_mode P; h_sync := sync; h_mx := ps_maxiter P;
    h_xtol := ps_xtol P; h_ftol := ps_ftol P; h_p := ps_p P; h_cb := cb; h_nout := ps_nout P;
    h_pop0 := fun X => X; h_pop := fun _ cand => cand; h_recp := fun _ cand => cand;
    h_recb := fun _ cand cf => best_row cand cf;
    h_C0 := C0; h_C := fun _ cand _ => Forall C cand; h_B := pso_B P CP |}.

  Record PSOGood (P : PSOParams) (CX CV CP : vec -> Prop) : Prop := {
    pg_CP : forall u, CX u -> CP u;
    pg_B : ps_mode P = Mpi -> forall n U, Forall CX U -> Forall CX (e_bcast n U);
    pg_mut : forall x v pb gb (r1 r2 : vec),
      CX x -> CV v -> CP pb -> CP gb -> length r1 = ps_d P -> length r2 = ps_d P ->
      CX (fst (pso_mutation P x v pb gb r1 r2)) /\ CV (snd (pso_mutation P x v pb gb r1 r2));
    pg_uni : quiet (uniform_row (ps_lower P) (ps_upper P)) CX;
    pg_zero : CV (repeat n0 (ps_d P)) }.

  Lemma restarted_shape P (CX CV CP : vec -> Prop) idx rows s s' :
    (forall u, CX u -> CP u) -> CV (repeat n0 (ps_d P)) ->
    pso_shape P CX CV CP s -> Restarted P idx rows s s' -> Forall CX rows ->
    (forall i, In i idx -> i < ps_p P) ->
    pso_shape P CX CV CP s'.
  Proof.
    intros HCP HCV (HX & HV & Hpb & Hpf & Hpf' & HFX & HFV & HFP & HCg)
      (R1 & R2 & R3 & R4 & R5 & R6 & R7 & R8) Hrows Hidx.
    assert (HFX' : Forall CX (pss_X s')) by (rewrite R1; apply Forall_upd_many; auto).
    assert (HlX' : length (pss_X s') = ps_p P) by (rewrite R1, upd_many_length; exact HX).
    unfold pso_shape. rewrite R2, R3, R4, R5, R7, !upd_many_length.
    repeat split; auto.
    - apply Forall_upd_many; auto. apply Forall_forall. intros r Hr. apply repeat_spec in Hr; subst; auto.
    - apply Forall_upd_many; auto. apply Forall_map, Forall_forall. intros i Hi.
      apply HCP. rewrite Forall_nth' in HFX'. apply HFX'. rewrite HlX'. auto.
  Qed.

  Lemma worst_length f n : length (worst f n) <= n.
  Proof. unfold worst. rewrite firstn_length. lia. Qed.

  (** [np.argsort] returns a permutation of the indices. *)
  Definition ArgsortPerm : Prop := forall f, Permutation (e_argsort f) (seq 0 (length f)).

  Lemma worst_lt f n i : ArgsortPerm -> In i (worst f n) -> i < length f.
  Proof.
    intros H Hi. unfold worst in Hi.
    assert (Hin : In i (rev (e_argsort f))).
    { rewrite <- (firstn_skipn n). apply in_or_app; left; exact Hi. }
    apply in_rev in Hin. apply (Permutation_in _ (H f)), in_seq in Hin. lia.
  Qed.

  Lemma cpso_run A (C0 CX CV CP : vec -> Prop) w a0 :
    let a := pa A in
    (forall mode, eval_kind (is_sync (pa_updating A) a) (a_workers a) (a_backend a) = inl mode ->
                  ModeOK mode) ->
    (forall P, PSOParamsOf A (is_sync (pa_updating A) a) P -> PSOGood P CX CV CP) ->
    (pa_competitivity A <> None -> ArgsortPerm) ->
    (forall u, C0 u -> CX u) ->
    (forall n U, Forall C0 U -> Forall C0 (e_bcast n U)) ->
    match a_x0 a with
    | Some x => Forall C0 (nd_rows x)
    | None => forall rows, a_bounds a = D2 2 rows ->
        quiet (lhs (Z.to_nat (a_popsize a)) (nd_len (a_bounds a))
                   (map (fun r => nth 0 r n0) rows) (map (fun r => nth 1 r n0) rows))
              (fun X => length X = Z.to_nat (a_popsize a) /\ Forall C0 X)
    end ->
    wp (cpso_minimize A)
       (fun res st' => exists P sync, PSOParamsOf A sync P /\
          RunOf (pso_H P sync (has_cb a) C0 CX CP) res (tr st')
                (fun q pop => if ps_alias P then argbuf st' = Some pop
                              else ps_mode P <> Mpi ->
                                   argbuf st' = match a_x0 a with
                                                | Some x => if a_x0_array a then Some (nd_rows x)
                                                            else a0
                                                | None => a0
                                                end)) NF (mkSt w [] a0).
  Proof.
    intros a HM HG HAS HC0 HBC0 Hx0. unfold cpso_minimize. fold a.
    apply wp_bind, wp_check_pop. intros Hargs.
    apply wp_bind, wp_raise_if; [discriminate|]. intros _.
    apply wp_bind, wp_raise_if; [discriminate|]. intros _.
    apply wp_bind, wp_raise_if; [discriminate|]. intros _.
    apply wp_bind, wp_raise_if; [discriminate|]. intros _.
    apply wp_bind. unfold check_updating. apply wp_raise_if; [discriminate|]. intros _.
    apply wp_bind, wp_seed_and_cb. intros w1 Hcb. cbn [tr argbuf].
    set (sync := is_sync (pa_updating A) a) in *.
    unfold cpso, eval_kindM.
    destruct (eval_kind sync (a_workers a) (a_backend a)) as [mode|e] eqn:Hmode.
    2: { apply wp_bind, wp_raise. unfold eval_kind, wrapper_kind in Hmode.
         destruct (_ && _) in Hmode; destruct sync; try discriminate;
           repeat match type of Hmode with
                  | context [if ?b then _ else _] => destruct b; try discriminate
                  end; injection Hmode as <-; discriminate. }
    apply wp_bind, wp_ret. apply wp_bind, wp_unpack_bounds. intros lower upper rows Hb Hlo Hup.
    destruct (pso_cons_map (a_constraints a)) as [con|] eqn:Hcon; cbn [orelse].
    2: { apply wp_bind, wp_raise; discriminate. }
    apply wp_bind, wp_ret. cbn zeta.
    set (p := Z.to_nat (a_popsize a)) in *.
    set (d := nd_len (a_bounds a)) in *.
    assert (Hpz : Z.of_nat p = a_popsize a) by (unfold p; pose proof (pao_pop a Hargs); lia).
    assert (Hp2 : 2 <= p) by (pose proof (pao_pop a Hargs); lia).
    assert (HX0 : quiet (match a_x0 a with Some x => ret (nd_rows x) | None => lhs p d lower upper end)
                        (fun X => length X = p /\ Forall C0 X /\
                           forall x, a_x0 a = Some x -> X = nd_rows x)).
    { destruct (a_x0 a) as [x|] eqn:Hx.
      - apply quiet_ret. split; [|split; [exact Hx0|congruence]].
        destruct (pao_x0 a Hargs x Hx) as (H1 & H2 & H3).
        destruct x; try discriminate. cbn [nd_len nd_rows] in *. lia.
      - rewrite Hlo, Hup. eapply quiet_conseq; [apply Hx0, Hb|]. cbn.
        intros X [H1 H2]; repeat split; auto. discriminate. }
    eapply wp_quiet_NF; [exact HX0|]. intros X s1 Ht1 Hb1 (HX & HCX0 & HXx). cbn [tr argbuf] in Ht1, Hb1.
    apply wp_bind, wp_raise_if; [discriminate|]. intros _.
    apply wp_bind, wp_eval_pop; [auto| |discriminate].
    intros X' f s2 evs Hf HX' Ht2 Hc2 Hs2 Hb2 Hev Hbc.
    assert (HlX' : length X' = p).
    { apply (f_equal (@length nat)) in HX'. rewrite !map_length in HX'. rewrite <- HX; exact HX'. }
    assert (Hlf : length f = p) by (rewrite <- HX; exact Hf).
    assert (Hsr : Shares mode p f evs) by (rewrite <- HX; exact Hs2).
    assert (HCX' : Forall C0 X').
    { destruct mode; try (destruct Hev as [-> _]; [discriminate|exact HCX0]).
      destruct (Hbc eq_refl) as [n ->]. apply HBC0; auto. }
    set (arr := match a_x0 a with Some _ => a_x0_array a | None => false end).
    set (is_list := match a_x0 a with Some _ => negb (a_x0_array a) | None => false end).
    assert (Hset : forall (k : M OptRes) (Q : OptRes -> St -> Prop),
      (forall s3, tr s3 = tr s2 -> argbuf s3 = (if arr then Some X' else argbuf s2) -> wp k Q NF s3) ->
      wp (when arr (set_arg X') ;;; k) Q NF s2).
    { intros k Q Hk. apply wp_bind, wp_when; intros Ha.
      - apply wp_set_arg. apply Hk; cbn; rewrite ?Ha; auto.
      - apply Hk; rewrite ?Ha; auto. }
    apply Hset. intros s3 Ht3 Hb3.
    apply wp_bind, wp_np_argmin. intros Hfne.
    apply wp_bind, wp_rec_alloc. intros nout Hn0 Hn1.
    apply wp_bind, wp_rec_write. intros r0 Hr0.
    set (P := mkPSOParams _ _ _ _ _ _ _ _ _ _ _ _ _ _ _ _ _).
    assert (HP : PSOParamsOf A sync P).
    { constructor; cbn; auto. exists rows; auto. }
    pose proof (HG P HP) as HGP.
    set (s := mkPSOS X' _ _ _ _ _ _ _).
    set (Hh := pso_H P sync (has_cb a) C0 CX CP).
    assert (Hinit : Hist Hh 1 (pss_q s) r0 None (pss_X s)
                         (evs ++ cbe Hh 1 (pss_q s) r0 (pss_X s))).
    { change (pss_X s) with (h_pop0 Hh X').
      apply (Hist_init Hh X X' f evs r0); cbn; auto.
      intros Hm. destruct (Hev Hm) as [-> Hl]. rewrite map_id. split; [reflexivity|exact Hl]. }
    assert (HFX' : Forall CX X') by (eapply Forall_impl; [|exact HCX']; auto).
    assert (Hsh : pso_shape P CX CV CP s).
    { repeat split; cbn; auto.
      - rewrite repeat_length; reflexivity.
      - apply Forall_forall. intros r Hr. apply repeat_spec in Hr; subst. apply (pg_zero _ _ _ _ HGP).
      - eapply Forall_impl; [|exact HCX0]. intros u Hu. apply (pg_CP _ _ _ _ HGP), HC0, Hu.
      - apply (pg_CP _ _ _ _ HGP). rewrite Forall_nth' in HFX'. apply HFX'.
        eapply Nat.lt_le_trans; [apply argmin_lt; exact Hfne|].
        exact (Nat.eq_le_incl _ _ (eq_trans Hlf (eq_sym HlX'))). }
    assert (Ht3' : tr s3 = evs) by (rewrite Ht3, Ht2, Ht1; reflexivity).
    assert (Hb3' : argbuf s3 = if arr then Some X' else a0)
      by (rewrite Hb3, Hb2, Hb1; reflexivity).
    pose (Arg := fun (s : PSOS) (st : St) =>
       if arr && negb sync then argbuf st = Some (pss_X s)
       else argbuf st = (if arr then Some X' else a0)).
    pose (Inv := fun (it : Z) (s : PSOS) (st : St) =>
       (exists q pop, Hist Hh it q (pss_rec s) None pop (tr st) /\ pso_B P CP it q (pss_q s)) /\
       pso_shape P CX CV CP s /\ Arg s st).
    pose (J := fun (it : Z) (s : PSOS) (c : option Z) (st : St) =>
       Hist Hh it (pss_q s) (pss_rec s) c (pss_X s)
            (tr st ++ cbe Hh it (pss_q s) (pss_rec s) (pss_X s)) /\ pso_shape P CX CV CP s /\
       Arg s st).
    pose (K := fun (it : Z) (s : PSOS) (c : option Z) (st : St) =>
       Hist Hh it (pss_q s) (pss_rec s) c (pss_X s) (tr st) /\ pso_shape P CX CV CP s /\
       Arg s st).
    assert (Hloop : forall st, Inv 1%Z s st ->
       wp (drive (pso_drv P sync) (has_cb a) (fuel (a_maxiter a)) 1 s)
       (fun res st' => exists P sync, PSOParamsOf A sync P /\
          RunOf (pso_H P sync (has_cb a) C0 CX CP) res (tr st')
                (fun q pop => if ps_alias P then argbuf st' = Some pop
                              else ps_mode P <> Mpi ->
                                   argbuf st' = match a_x0 a with
                                                | Some x => if a_x0_array a then Some (nd_rows x)
                                                            else a0
                                                | None => a0
                                                end)) NF st).
    { intros st Hi.
      eapply wp_post; [apply (drive_rule (pso_drv P sync) (has_cb a) (ps_maxiter P) Inv J K NF)|].
      - intros it sx sty ((q0 & pop0 & HH & HB0) & Hshx & Hbx).
        eapply wp_post; [apply (pso_step_spec P sync CX CV CP)|].
        + cbn; lia.
        + cbn; auto.
        + cbn. apply (eval_kind_async _ _ _ _ Hmode).
        + apply (pg_CP _ _ _ _ HGP).
        + apply (pg_B _ _ _ _ HGP).
        + apply (pg_mut _ _ _ _ HGP).
        + exact Hshx.
        + cbn. intros Hsy Ha. unfold Arg in Hbx. rewrite Ha in Hbx. exact Hbx.
        + intros [s' c] st' (evs' & cf & Ht & HGs & Hpf & Hsh' & HR & Hba & Hba').
          cbn [fst snd] in *. split.
          * split; [|split; [exact Hsh'|]].
            -- rewrite Ht, <- app_assoc.
               change (pss_X s') with (h_pop Hh (pss_q s') (pss_X s')) at 1.
               change (cbe Hh (it + 1) (pss_q s') (pss_rec s') (pss_X s')) with
                 (cbe Hh (it + 1) (pss_q s') (pss_rec s') (h_pop Hh (pss_q s') (pss_X s'))).
               eapply Hist_step; [exact HH|exact HB0|exact HGs| |exact HR].
               destruct Hsh' as (_ & _ & _ & _ & _ & HFX1 & _). exact HFX1.
            -- unfold Arg in *. unfold pso_arg in Hba. cbn [ps_alias] in Hba. fold arr in Hba.
               destruct sync.
               ++ rewrite andb_false_r in *. rewrite (Hba' eq_refl). exact Hbx.
               ++ specialize (Hba eq_refl). destruct arr; cbn in *; [exact Hba|congruence].
          * intros ->. apply (gen_status _ _ _ _ _ _ _ _ _ _ (gs_next _ _ _ _ _ _ _ _ _ _ _ _ _ _ HGs)).
      - intros it sx c sty Hcbf (HH & Hr). split; [|exact Hr].
        unfold cbe in HH. cbn in HH. rewrite Hcbf, app_nil_r in HH. exact HH.
      - intros it sx c wx wx' t b Hcbt (HH & Hr). split; [|exact Hr].
        unfold cbe in HH. cbn in HH. rewrite Hcbt in HH. cbn. exact HH.
      - intros; discriminate.
      - intros it sx sty (HH & Hshx & Hbx).
        eapply wp_post; [apply (pso_post_spec P CX)|].
        + apply (pg_uni _ _ _ _ HGP).
        + intros s' st' [Ht [[-> Hbb]|(g & nw & rows' & Hg & Hsw & Hnw & Hnw0 & Hlr & HFr & HRe & Hba)]].
          * split; [|split; [exact Hshx|]].
            -- exists (pss_q sx), (pss_X sx). rewrite Ht. split; [exact HH|left; reflexivity].
            -- unfold Arg in *. rewrite Hbb. exact Hbx.
          * assert (Hgn : pa_competitivity A <> None).
            { intros Hn. cbn in Hg. rewrite Hn in Hg. discriminate. }
            pose proof (HAS Hgn) as HASp.
            pose proof HRe as HRe'. destruct HRe' as (R1 & R2 & R3 & R4 & R5 & R6 & R7 & R8).
            split; [|split].
            -- exists (pss_q sx), (pss_X sx). rewrite Ht, R8. split; [exact HH|]. right.
               exists g, nw, (map (fun i => nth i (pss_X s') []) (worst (pss_pbestfit sx) (Z.to_nat nw))).
               rewrite Hlr in R4.
               repeat split; auto. cbn. rewrite map_length. reflexivity.
            -- eapply restarted_shape; [apply (pg_CP _ _ _ _ HGP)|apply (pg_zero _ _ _ _ HGP)
                 |exact Hshx|exact HRe|exact HFr|].
               intros i Hin. destruct Hshx as (_ & _ & _ & Hpb & _). rewrite <- Hpb.
               eapply worst_lt; eauto.
            -- unfold Arg in *. unfold pso_arg in Hba. cbn in Hba. fold arr in Hba.
               destruct (arr && negb sync); [exact Hba|congruence].
      - intros it sx c sty (HH & _). apply message_pop.
        apply Hist_status in HH. destruct HH as (_ & _ & [H|[H|[H _]]]); auto.
      - exact Hi.
      - left. unfold fuel. cbn. lia.
      - intros res st' (it' & s' & c & m & Hit & (HH & Hsh' & Hba) & Hm & ->).
        exists P, sync. split; [exact HP|].
        exists it', (pss_q s'), (pss_rec s'), c, m, (pss_X s').
        split; [exact HH|]. split; [exact Hm|]. split; [|reflexivity].
        unfold Arg in Hba. change (ps_alias P) with (arr && negb sync).
        destruct (arr && negb sync); [exact Hba|].
        intros Hm'. rewrite Hba. unfold arr.
        destruct (a_x0 a) as [x|] eqn:Hx; [|reflexivity].
        destruct (a_x0_array a); [|reflexivity].
        destruct (Hev Hm') as [-> _]. rewrite (HXx x eq_refl). reflexivity. }
    assert (HInv0 : forall st, tr st = evs ++ cbe Hh 1 (pss_q s) r0 (pss_X s) ->
                               argbuf st = argbuf s3 -> Inv 1%Z s st).
    { intros st Hts Hbs. split; [|split; [exact Hsh|]].
      - exists (pss_q s), (pss_X s). rewrite Hts. split; [exact Hinit|left; reflexivity].
      - unfold Arg. rewrite Hbs, Hb3'. destruct arr; cbn; auto. destruct sync; reflexivity. }
    apply wp_bind, wp_when; intros Hcbv.
    - destruct s3 as [w3 t3 b3]. cbn in Ht3', Hb3'. apply wp_call_cb; [|discriminate].
      intros w4 _. apply Hloop, HInv0; [|reflexivity].
      unfold cbe. cbn. rewrite Hcbv, Ht3'. reflexivity.
    - apply Hloop, HInv0; [|reflexivity].
      unfold cbe. cbn. rewrite Hcbv, app_nil_r. exact Ht3'.
  Qed.
End PSORun.

Section NARun.
  Context {N : Num} {E : Env N}.

  Record NAParamsOf (A : NAArgs) (P : NAParams) : Prop := {
    npo_p : Z.of_nat (na_p P) = a_popsize (naa A);
    npo_p2 : 2 <= na_p P;
    npo_d : na_d P = nd_len (a_bounds (naa A));
    npo_nr : exists k, ntrunc (nmul (naa_nrperc A) (nZ (a_popsize (naa A)))) = Some k /\
                       na_nr P = Z.to_nat (Z.max 1 k);
    npo_bounds : exists rows, a_bounds (naa A) = D2 2 rows /\
                   na_lower P = map (fun r => nth 0 r n0) rows /\
                   na_upper P = map (fun r => nth 1 r n0) rows;
    npo_mx : na_maxiter P = a_maxiter (naa A);
    npo_xtol : na_xtol P = a_xtol (naa A);
    npo_ftol : na_ftol P = a_ftol (naa A);
    npo_mode : eval_kind true (a_workers (naa A)) (a_backend (naa A)) = inl (na_mode P);
    npo_nout0 : a_return_all (naa A) = false -> na_nout P = None;
    npo_nout1 : a_return_all (naa A) = true -> exists n, na_nout P = Some n /\
                  nceilZ (nmul (a_verbosity (naa A)) (nZ (a_popsize (naa A)))) = Some n /\
                  (0 <= a_maxiter (naa A))%Z;
    npo_args : PopArgsOK (naa A) }.

  Definition na_H (P : NAParams) (cb : bool) (C0 C : vec -> Prop) : HParams :=
    let un := unnormalize (na_lower P) (na_upper P) in {|
    h_view := un; h_mode := na_mode P; h_sync := true; h_mx := na_maxiter P;
    h_xtol := na_xtol P; h_ftol := na_ftol P; h_p := na_p P; h_cb := cb; h_nout := na_nout P;
    h_pop0 := map un; h_pop := fun _ cand => map un cand; h_recp := fun _ cand => map un cand;
    h_recb := fun _ cand cf => (un (fst (best_row cand cf)), snd (best_row cand cf));
    h_C0 := C0; h_C := fun _ cand _ => Forall C cand; h_B := fun _ q q1 => q1 = q |}.

  Definition NAGood (P : NAParams) (C : vec -> Prop) : Prop :=
    forall (Xall : matrix) (Xallfit : vec),
      length Xallfit = length Xall -> Xall <> [] -> Forall C Xall ->
      quiet (na_mutation P Xall Xallfit) (fun X => length X = na_p P /\ Forall C X).

  Lemma na_run A (C : vec -> Prop) w a0 :
    let a := naa A in
    (forall mode, eval_kind true (a_workers a) (a_backend a) = inl mode -> ModeOK mode) ->
    (forall P, NAParamsOf A P -> NAGood P C) ->
    (forall rows, a_bounds a = D2 2 rows ->
     let lower := map (fun r => nth 0 r n0) rows in
     let upper := map (fun r => nth 1 r n0) rows in
     match a_x0 a with
     | Some x => Forall (fun r => C (normalize lower upper r)) (nd_rows x)
     | None =>
        quiet (lhs (Z.to_nat (a_popsize a)) (nd_len (a_bounds a)) lower upper)
              (fun X => length X = Z.to_nat (a_popsize a) /\
                        Forall (fun r => C (normalize lower upper r)) X)
     end) ->
    wp (na_minimize A)
       (fun res st' => exists P, NAParamsOf A P /\
          RunOf (na_H P (has_cb a) C C) res (tr st') (fun _ _ => argbuf st' = a0)) NF (mkSt w [] a0).
  Proof.
    intros a HM HG Hx0. unfold na_minimize. fold a.
    apply wp_bind, wp_check_pop. intros Hargs.
    apply wp_bind, wp_raise_if; [discriminate|]. intros _.
    apply wp_bind, wp_seed_and_cb. intros w1 Hcb. cbn [tr argbuf].
    unfold na, eval_kindM.
    destruct (eval_kind true (a_workers a) (a_backend a)) as [mode|e] eqn:Hmode.
    2: { apply wp_bind, wp_raise. unfold eval_kind, wrapper_kind in Hmode.
         destruct (_ && _) in Hmode; try discriminate;
           repeat match type of Hmode with
                  | context [if ?b then _ else _] => destruct b; try discriminate
                  end; injection Hmode as <-; discriminate. }
    apply wp_bind, wp_ret. apply wp_bind, wp_unpack_bounds. intros lower upper rows Hb Hlo Hup.
    specialize (Hx0 rows Hb). cbn zeta in Hx0. rewrite <- Hlo, <- Hup in Hx0.
    cbn zeta.
    destruct (ntrunc (nmul (naa_nrperc A) (nZ (a_popsize a)))) as [nr|] eqn:Hnr; cbn [orelse].
    2: { apply wp_bind, wp_raise; discriminate. }
    apply wp_bind, wp_ret.
    set (p := Z.to_nat (a_popsize a)) in *.
    set (d := nd_len (a_bounds a)) in *.
    assert (Hpz : Z.of_nat p = a_popsize a) by (unfold p; pose proof (pao_pop a Hargs); lia).
    assert (Hp2 : 2 <= p) by (pose proof (pao_pop a Hargs); lia).
    assert (HX0 : quiet (match a_x0 a with Some x => ret (nd_rows x) | None => lhs p d lower upper end)
                        (fun X => length X = p /\ Forall (fun r => C (normalize lower upper r)) X)).
    { destruct (a_x0 a) as [x|] eqn:Hx.
      - apply quiet_ret. split; [|exact Hx0].
        destruct (pao_x0 a Hargs x Hx) as (H1 & H2 & H3).
        destruct x; try discriminate. cbn [nd_len nd_rows] in *. lia.
      - exact Hx0. }
    eapply wp_quiet_NF; [exact HX0|]. intros X0 s1 Ht1 Hb1 [HX0' HCX0']. cbn [tr argbuf] in Ht1, Hb1.
    set (X := map (normalize lower upper) X0) in *.
    assert (HX : length X = p) by (unfold X; rewrite map_length; exact HX0').
    assert (HCX : Forall C X) by (apply Forall_map; exact HCX0').
    set (P0 := mkNAParams _ _ _ _ _ _ _ _ _ None).
    apply wp_bind. apply (na_eval_rule P0 C (HM mode eq_refl) X s1 p); auto.
    intros X' f s2 evs Hf HX' _ Ht2 Hc2 Hs2 Hb2 Hev HXX. subst X'.
    apply wp_bind, wp_np_argmin. intros Hfne.
    apply wp_bind, wp_rec_alloc. intros nout Hn0 Hn1.
    apply wp_bind, wp_rec_write. intros r0 Hr0.
    set (P := mkNAParams _ _ _ _ _ _ _ _ _ nout).
    assert (HP : NAParamsOf A P).
    { constructor; cbn; auto.
      - exists nr; auto.
      - exists rows; auto. }
    pose proof (HG P HP) as HGP.
    set (s := mkNAS X _ _ _ _ _ _ _ _).
    set (Hh := na_H P (has_cb a) C C).
    set (un := unnormalize lower upper) in *.
    assert (Hinit : Hist Hh 1 (nas_q s) r0 None (map un (nas_X s))
                         (evs ++ cbe Hh 1 (nas_q s) r0 (map un (nas_X s)))).
    { change (map un (nas_X s)) with (h_pop0 Hh X).
      apply (Hist_init Hh X X f evs r0); cbn; auto. }
    assert (Hsh : na_shape P C s).
    { repeat split; cbn; auto.
      - exact (eq_trans Hf (eq_sym HX)).
      - intros Hn; rewrite Hn in HX; cbn in HX; lia.
      - rewrite Forall_nth' in HCX. apply HCX.
        eapply Nat.lt_le_trans; [apply argmin_lt; exact Hfne|].
        exact (Nat.eq_le_incl _ _ (eq_trans Hf (eq_sym HX))). }
    assert (Ht3' : tr s2 = evs) by (rewrite Ht2, Ht1; reflexivity).
    assert (Hb3' : argbuf s2 = a0) by (rewrite Hb2, Hb1; reflexivity).
    pose (Inv := fun (it : Z) (s : NAS) (st : St) =>
       Hist Hh it (nas_q s) (nas_rec s) None (map un (nas_X s)) (tr st) /\ na_shape P C s /\
       argbuf st = a0).
    pose (J := fun (it : Z) (s : NAS) (c : option Z) (st : St) =>
       Hist Hh it (nas_q s) (nas_rec s) c (map un (nas_X s))
            (tr st ++ cbe Hh it (nas_q s) (nas_rec s) (map un (nas_X s))) /\ na_shape P C s /\
       argbuf st = a0).
    pose (K := fun (it : Z) (s : NAS) (c : option Z) (st : St) =>
       Hist Hh it (nas_q s) (nas_rec s) c (map un (nas_X s)) (tr st) /\ na_shape P C s /\
       argbuf st = a0).
    assert (Hloop : forall st, Inv 1%Z s st ->
       wp (drive (na_drv P) (has_cb a) (fuel (a_maxiter a)) 1 s)
       (fun res st' => exists P, NAParamsOf A P /\
          RunOf (na_H P (has_cb a) C C) res (tr st') (fun _ _ => argbuf st' = a0)) NF st).
    { intros st Hi.
      eapply wp_post; [apply (drive_rule (na_drv P) (has_cb a) (na_maxiter P) Inv J K NF)|].
      - intros it sx sty (HH & Hshx & Hbx).
        eapply wp_post; [apply (na_step_spec P C)|].
        + cbn; lia.
        + cbn; auto.
        + exact HGP.
        + exact Hshx.
        + intros [s' c] st' (evs' & cf & Ht & HGs & Hpf & Hsh' & Hxa & Hxf & HR & Hba).
          cbn [fst snd] in *. split.
          * split; [|split; [exact Hsh'|congruence]].
            rewrite Ht, <- app_assoc.
            change (map un (nas_X s')) with (h_pop Hh (nas_q s') (nas_X s')).
            eapply Hist_step; [exact HH|reflexivity|exact HGs| |exact HR].
            destruct Hsh' as (_ & _ & _ & _ & _ & _ & HFX1 & _). exact HFX1.
          * intros ->. apply (gen_status _ _ _ _ _ _ _ _ _ _ (gs_next _ _ _ _ _ _ _ _ _ _ _ _ _ _ HGs)).
      - intros it sx c sty Hcbf (HH & Hr). split; [|exact Hr].
        unfold cbe in HH. cbn in HH. rewrite Hcbf, app_nil_r in HH. exact HH.
      - intros it sx c wx wx' t b Hcbt (HH & Hr). split; [|exact Hr].
        unfold cbe in HH. cbn in HH. rewrite Hcbt in HH. cbn. exact HH.
      - intros; discriminate.
      - intros it sx sty HK. apply wp_ret. exact HK.
      - intros it sx c sty (HH & _). apply message_pop.
        apply Hist_status in HH. destruct HH as (_ & _ & [H|[H|[H _]]]); auto.
      - exact Hi.
      - left. unfold fuel. cbn. lia.
      - intros res st' (it' & s' & c & m & Hit & (HH & Hsh' & Hba) & Hm & ->).
        exists P. split; [exact HP|].
        exists it', (nas_q s'), (nas_rec s'), c, m, (map un (nas_X s')).
        split; [exact HH|]. split; [exact Hm|]. split; [exact Hba|reflexivity]. }
    apply wp_bind, wp_when; intros Hcbv.
    - destruct s2 as [w3 t3 b3]. cbn in Ht3', Hb3'. apply wp_call_cb; [|discriminate].
      intros w4 _. apply Hloop. split; [|split; [exact Hsh|exact Hb3']].
      unfold cbe in Hinit. cbn in Hinit. rewrite Hcbv in Hinit. cbn. rewrite Ht3'. exact Hinit.
    - apply Hloop. split; [|split; [exact Hsh|exact Hb3']].
      unfold cbe in Hinit. cbn in Hinit. rewrite Hcbv, app_nil_r in Hinit. rewrite Ht3'. exact Hinit.
  Qed.
End NARun.
