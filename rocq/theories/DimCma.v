(** CMA-ES and VD-CMA: what the points of every run have in common (dimensions, C12, C52). *)
From Coq Require Import Permutation.
From Verif Require Import Base Num Env Common DE Mat CMAES VDCMA Hoare EvalRules Gen Steps Runs Inst Laws Safe Feas.
Open Scope nat_scope.

Section Drive2.
  Context {N : Num} {E : Env N}.
  Context (Pe : @vec (@num_arith N) -> Prop) (Pc : @matrix (@num_arith N) -> CbState -> Prop).
  (** like [safe_drive], with an invariant [Post] that holds after each generation only *)
  Lemma safe_drive2 {S} (d : Drv S) (Inv Post : S -> Prop) cb fuel :
    (forall it s, Inv s -> safe Pe Pc (d_step d it s) (fun r => Inv (fst r) /\ Post (fst r))) ->
    (forall it s, Inv s -> safe Pe Pc (d_post d it s) Inv) ->
    (forall it s, Post s -> cb = true -> Pc (d_pop d s) (cb_state d it s)) ->
    forall it s, Inv s ->
    safe Pe Pc (drive d cb fuel it s) (fun r => exists s, Post s /\ r_x r = d_x d s /\ r_fun r = d_fun d s).
  Proof.
    intros Hs Hp Hc. induction fuel as [|k IH]; intros it s HI; cbn [drive]; [apply safe_raise|].
    eapply safe_bind; [apply Hs, HI|]. intros [s1 st] [HI1 HP1]; cbn in HI1, HP1.
    eapply safe_bind.
    - apply safe_when with (Q := fun _ => True); [|exact I]. intros Hb. apply safe_call_cb; [apply Hc; assumption|exact I].
    - intros _ _. destruct st as [c|].
      + unfold result. eapply safe_bind; [apply (safe_orelse _ _ _ _ (fun _ => True)); intros; exact I|]. intros msg _.
        apply safe_ret. exists s1. cbn. auto.
      + eapply safe_bind; [apply Hp, HI1|]. intros s2 HI2. apply IH, HI2.
  Qed.
End Drive2.

(** [np.linalg.eigh] returns as many eigenvectors' rows as the matrix has rows. *)
Definition EighRows {N : Num} {E : Env N} : Prop :=
  forall C D B, e_eigh C = Some (D, B) -> length B = length C.

Section DimsCma.
  Context {N : Num} {E : Env N}.
  Context (HE : EnvOK).
  Notation nvec := (@vec (@num_arith N)).
  Notation nmat := (@matrix (@num_arith N)).

  Lemma vadd_len (u v : nvec) : length (vadd u v) = Nat.min (length u) (length v).
  Proof. apply map2_length. Qed.
  Lemma vsub_len (u v : nvec) : length (vsub u v) = Nat.min (length u) (length v).
  Proof. apply map2_length. Qed.
  Lemma vmul_len (u v : nvec) : length (vmul u v) = Nat.min (length u) (length v).
  Proof. apply map2_length. Qed.
  Lemma vdiv_len (u v : nvec) : length (vdiv u v) = Nat.min (length u) (length v).
  Proof. apply map2_length. Qed.
  Lemma vscale_len a (u : nvec) : length (vscale a u) = length u.
  Proof. apply map_length. Qed.
  Lemma mvec_len (m : nmat) v : length (mvec m v) = length m.
  Proof. apply map_length. Qed.
  Lemma vmat_len c (w : nvec) m : length (vmat c w m) = c.
  Proof. unfold vmat. rewrite map_length. apply seq_length. Qed.
  Lemma mmul_len c (a b : nmat) : length (mmul c a b) = length a.
  Proof. apply map_length. Qed.
  Lemma mtrans_len c (m : nmat) : length (mtrans c m) = c.
  Proof. unfold mtrans. rewrite map_length. apply seq_length. Qed.
  Lemma mtab_len r c (f : nat -> nat -> @T (@num_arith N)) : length (mtab r c f) = r.
  Proof. unfold mtab. rewrite map_length. apply seq_length. Qed.
  Lemma madd_len (a b : nmat) : length (madd a b) = Nat.min (length a) (length b).
  Proof. apply map2_length. Qed.
  Lemma mscale_len k (m : nmat) : length (mscale k m) = length m.
  Proof. apply map_length. Qed.
  Lemma mscale_l_len k (m : nmat) : length (mscale_l k m) = length m.
  Proof. apply map_length. Qed.
  Lemma outer_len (u v : nvec) : length (outer u v) = length u.
  Proof. apply map_length. Qed.

  Ltac lens := repeat first
    [ rewrite vadd_len in * | rewrite vsub_len in * | rewrite vmul_len in * | rewrite vdiv_len in *
    | rewrite vscale_len in * | rewrite mvec_len in * | rewrite vmat_len in * | rewrite mmul_len in *
    | rewrite mtrans_len in * | rewrite mtab_len in * | rewrite madd_len in * | rewrite mscale_len in *
    | rewrite mscale_l_len in * | rewrite outer_len in * | rewrite map_length in * | rewrite map2_length in *
    | rewrite map3_length in * | rewrite repeat_length in * | rewrite combine_length in * | rewrite upd_length in *
    | rewrite seq_length in * ]; vlia.

  Context (d : nat) (pen : bool) (xm xstd : nvec).
  (** [Pv]: the points of a generation, standardised; [Pe]: evaluated points. *)
  Context (Pv Pe : nvec -> Prop).
  Context (HPv : forall x : nvec, length x = d -> Pv (if pen then map clip1 x else x)).
  Context (HPe : forall x, Pv x -> Pe (unstandardize xm xstd x)).
  Context (Pc : nmat -> CbState -> Prop).

  Record CmOK (P : CMAParams) : Prop := {
    co_d : cm_d P = d; co_pen : cm_pen P = pen; co_xm : cm_xm P = xm; co_xstd : cm_xstd P = xstd;
    co_p : 0 < cm_p P; co_mode : ModeKeeps Pe (cm_mode P) }.

  Lemma un_all P X : CmOK P -> Forall Pv X -> Forall Pe (map (cma_un P) X).
  Proof.
    intros HP HX. apply Forall_forall. intros y Hy. apply in_map_iff in Hy. destruct Hy as (x & <- & Hx).
    rewrite Forall_forall in HX. unfold cma_un. rewrite (co_xm _ HP), (co_xstd _ HP). apply HPe, HX, Hx.
  Qed.

  Lemma safe_cma_eval P X : CmOK P -> Forall Pv X ->
    safe Pe Pc (cma_eval P X) (fun f => length f = length X).
  Proof.
    intros HP HX. unfold cma_eval. eapply safe_bind.
    - apply (safe_eval_pop _ _ Pe _ _ (co_mode _ HP)); [auto|]. apply un_all; auto.
    - intros [? f] (_ & _ & H & _). apply safe_ret. rewrite map_length in H. exact H.
  Qed.

  Lemma safe_cma_fitness P arx xmean xold sigma diagC it ps : CmOK P ->
    Forall (fun x : nvec => length x = d) arx ->
    safe Pe Pc (cma_fitness P arx xmean xold sigma diagC it ps)
      (fun r => length (fst (fst r)) = length arx /\ length (snd (fst r)) = length arx /\
                Forall Pv (snd (fst r))).
  Proof.
    intros HP HX. unfold cma_fitness. rewrite (co_pen _ HP).
    assert (HV : Forall Pv (map (fun x => if pen then map clip1 x else x) arx)).
    { apply Forall_forall. intros y Hy. apply in_map_iff in Hy. destruct Hy as (x & <- & Hx).
      rewrite Forall_forall in HX. apply HPv, HX, Hx. }
    destruct pen.
    - unfold penalize. eapply safe_bind; [apply safe_cma_eval; [exact HP|exact HV]|]. intros fit Hf.
      eapply safe_bind with (R := fun _ => True).
      { destruct (neqb _ _).
        - destruct (filter _ _); [apply safe_raise|apply safe_ret; exact I].
        - destruct (negb _); apply safe_ret; exact I. }
      intros [[delta hist] valid] _. cbv zeta.
      destruct (if _ && _ then _ else _) as [w ini].
      apply safe_ret. cbn [fst snd]. split; [|split; [apply map_length|exact HV]].
      rewrite map_length in Hf. lens.
    - rewrite map_id in HV. eapply safe_bind; [apply safe_cma_eval; [exact HP|exact HV]|]. intros f Hf.
      apply safe_ret. cbn. auto.
  Qed.

  Lemma argsort0 (f : nvec) : 0 < length f -> nth 0 (e_argsort f) 0 < length f.
  Proof.
    intros Hf. pose proof (proj1 (eo_argsort HE) f) as HP.
    assert (Hl : length (e_argsort f) = length f) by (rewrite (Permutation_length HP); apply seq_length).
    assert (Hin : In (nth 0 (e_argsort f) 0) (e_argsort f)) by (apply nth_In; vlia).
    apply (Permutation_in _ HP), in_seq in Hin. vlia.
  Qed.

  Lemma safe_hist_set P it v h : safe Pe Pc (hist_set P it v h) (fun _ => True).
  Proof. unfold hist_set. destruct (_ <? _)%Z; [apply safe_raise|apply safe_ret; exact I]. Qed.

  Lemma safe_randn_vec n : safe Pe Pc (randn_vec n) (fun z => length z = n).
  Proof.
    unfold randn_vec. eapply safe_conseq; [apply (safe_replicateM _ _ _ _ (fun _ => True))|intros z [H _]; exact H].
    apply safe_draw. auto.
  Qed.

  (** *** CMA-ES *)
  Record CInv (s : CMAS) : Prop := {
    ci_m : length (cs_xmean s) = d; ci_pc : length (cs_pc s) = d;
    ci_B : length (cs_B s) = d; ci_C : length (cs_C s) = d }.
  Record CPost (p : nat) (valid : nmat) (fit : nvec) (index : list nat) : Prop := {
    cp_p : length valid = p; cp_v : Forall Pv valid; cp_l : length fit = length valid; cp_n : 0 < length fit;
    cp_i : index = e_argsort fit }.

  Lemma cpost_best p valid fit index : CPost p valid fit index -> Pv (nth (nth 0 index 0) valid []).
  Proof.
    intros [_ H1 H2 H3 ->]. apply Forall_nth_lt; [exact H1|]. rewrite <- H2. apply argsort0, H3.
  Qed.

  Lemma cov_len c1 cc cmu w y pc cond C : length pc = d -> length C = d ->
    length (@cov_update (@num_arith N) d c1 cc cmu w y pc cond C) = d.
  Proof. intros H1 H2. unfold cov_update. destruct cond; lens. Qed.

  Lemma safe_cma_step (HEig : EighRows) P it s : CmOK P -> CInv s ->
    safe Pe Pc (cma_step P it s)
      (fun r => CInv (fst r) /\ CPost (cm_p P) (cs_valid (fst r)) (cs_fit (fst r)) (cs_index (fst r))).
  Proof.
    intros HP [H1 H2 H3 H4]. unfold cma_step. pose proof (co_d _ HP) as Hd. cbv zeta. rewrite Hd.
    eapply safe_bind with (R := fun arx => length arx = cm_p P /\ Forall (fun x : nvec => length x = d) arx).
    { unfold cma_sample. apply safe_replicateM. eapply safe_bind; [apply safe_randn_vec|]. intros z Hz.
      apply safe_ret. lens. }
    intros arx [Ha1 Ha2].
    eapply safe_bind; [apply safe_cma_fitness; assumption|]. intros [[fit valid] ps'] (F1 & F2 & F3).
    cbn [fst snd] in *.
    eapply safe_bind; [apply safe_rec_write|]. intros r _.
    eapply safe_bind; [apply safe_hist_set|]. intros h _.
    set (xmean := vmat _ _ _). set (dx := vsub xmean _). set (ps := cma_ps _ _ _). set (cond := cma_cond _ _ _).
    set (pc := cma_pc _ _ _ _). set (C := cov_update _ _ _ _ _ _ _ _ _).
    assert (Hx : length xmean = d) by apply vmat_len.
    assert (Hdx : length dx = d) by (unfold dx; lens).
    assert (Hpc : length pc = d) by (unfold pc, cma_pc; destruct cond; lens).
    assert (HC : length C = d) by (apply cov_len; assumption).
    clearbody xmean dx ps cond pc C.
    eapply safe_bind with (R := fun b => length (fst (fst (fst (fst b)))) = d /\ length (snd (fst (fst b))) = d).
    { destruct (nltb _ _).
      - eapply safe_bind; [apply safe_orelse; intros a Hq; exact Hq|]. intros [D B] HD. cbv beta in HD.
        apply HEig in HD. apply safe_ret. cbn [fst snd]. unfold symm in *. split; lens.
      - apply safe_ret. cbn [fst snd]. auto. }
    intros [[[[B D] C'] inv] ee] [HB HC']. cbn [fst snd] in HB, HC'. apply safe_ret.
    cbn [fst cs_valid cs_fit cs_index]. split; constructor; cbn; auto; try vlia.
    rewrite F1, Ha1. apply (co_p _ HP).
  Qed.

  (** *** VD-CMA *)
  Record VInv (s : VDS) : Prop := {
    vi_m : length (vs_xmean s) = d; vi_dx : length (vs_dx s) = d; vi_d : length (vs_dvec s) = d;
    vi_v : length (vs_vvec s) = d; vi_vn : length (vs_vn s) = d; vi_vnn : length (vs_vnn s) = d;
    vi_pc : length (vs_pc s) = d }.

  Lemma vd_update_len vmx vmn c1 cmu w ary pc cond dvec vvec nv2 nv vn vnn :
    length pc = d -> length dvec = d -> length vvec = d -> length vn = d -> length vnn = d ->
    length (fst (@vd_update (@num_arith N) vmx vmn d c1 cmu w ary pc cond dvec vvec nv2 nv vn vnn)) = d /\
    length (snd (@vd_update (@num_arith N) vmx vmn d c1 cmu w ary pc cond dvec vvec nv2 nv vn vnn)) = d.
  Proof.
    intros H1 H2 H3 H4 H5. unfold vd_update, vd_alpha.
    set (al := if nltb _ n1 then _ else _). destruct al as [alpha beta].
    set (bsca := nsub _ beta). set (avec := map _ vnn).
    assert (Ha : length avec = d) by (unfold avec; lens).
    assert (Hi : length (vdiv vnn avec) = d) by lens.
    generalize dependent (vdiv vnn avec). intros inv Hi.
    assert (Hmu : exists pmu qmu, (if neqb cmu n0 then (repeat n0 d, repeat n0 d)
                       else pq_mu d vn nv2 (map (fun y => vdiv y dvec) ary) w) = (pmu, qmu) /\ length pmu = d /\ length qmu = d).
    { destruct (neqb cmu n0); do 2 eexists; (split; [reflexivity|]); split; lens. }
    destruct Hmu as (pmu & qmu & -> & M1 & M2).
    assert (Hq1 : exists p1 q1, (if neqb c1 n0 then (repeat n0 d, repeat n0 d)
                     else pq_one vn nv2 (vdiv pc dvec)) = (p1, q1) /\ length p1 = d /\ length q1 = d).
    { destruct (neqb c1 n0); do 2 eexists; (split; [reflexivity|]); split; lens. }
    destruct Hq1 as (p1 & q1 & -> & Q1 & Q2). cbv zeta.
    assert (Hpq : exists pvec qvec, (if cond then (vadd (vscale cmu pmu) (vscale c1 p1), vadd (vscale cmu qmu) (vscale c1 q1))
                         else (vscale cmu pmu, vscale cmu qmu)) = (pvec, qvec) /\ length pvec = d /\ length qvec = d).
    { destruct cond; do 2 eexists; (split; [reflexivity|]); split; lens. }
    destruct Hpq as (pvec & qvec & -> & P1 & P2).
    assert (Hng : length (fst (ngv_ngd dvec vn vnn nv nv2 alpha avec bsca inv pvec qvec)) = d /\
                  length (snd (ngv_ngd dvec vn vnn nv nv2 alpha avec bsca inv pvec qvec)) = d).
    { unfold ngv_ngd. cbv zeta. cbn [fst snd]. split; lens. }
    destruct (ngv_ngd dvec vn vnn nv nv2 alpha avec bsca inv pvec qvec) as [ngv ngd]. cbn [fst snd] in Hng.
    destruct Hng as [G1 G2].
    destruct (nltb n0 _); cbn [fst snd]; split; lens.
  Qed.

  Lemma safe_vd_sample P s : CmOK P -> VInv s ->
    safe Pe Pc (vd_sample P s) (fun ary => length ary = cm_p P /\ Forall (fun x : nvec => length x = d) ary).
  Proof.
    intros HP [H1 H2 H3 H4 H5 H6 H7]. unfold vd_sample. rewrite (co_d _ HP).
    eapply safe_bind; [apply safe_replicateM, safe_randn_vec|]. intros arz [Ha1 Ha2]. cbv zeta.
    match goal with |- context [map ?f arz] => set (ary := map f arz) end.
    assert (A1 : length ary = cm_p P) by (unfold ary; rewrite map_length; exact Ha1).
    assert (A2 : Forall (fun x : nvec => length x = d) ary).
    { apply Forall_forall. intros y Hy. apply in_map_iff in Hy. destruct Hy as (z & <- & Hz).
      rewrite Forall_forall in Ha2. specialize (Ha2 z Hz). lens. }
    clearbody ary. destruct (vs_inj s); [|apply safe_ret; auto].
    eapply safe_bind; [apply safe_randn_vec|]. intros z Hz.
    eapply safe_bind; [apply (safe_raise_if _ _ _ _ (fun _ => True)); auto|]. intros _ _. apply safe_ret.
    split; [rewrite !upd_length; exact A1|]. apply Forall_upd; [lens|]. apply Forall_upd; [lens|exact A2].
  Qed.

  Lemma safe_vd_step P it s : CmOK P -> VInv s ->
    safe Pe Pc (vd_step P it s)
      (fun r => VInv (fst r) /\ CPost (cm_p P) (vs_valid (fst r)) (vs_fit (fst r)) (vs_index (fst r))).
  Proof.
    intros HP HI. unfold vd_step. pose proof (co_d _ HP) as Hd. cbv zeta. rewrite Hd.
    eapply safe_bind; [apply safe_vd_sample; assumption|]. intros ary [A1 A2].
    destruct HI as [H1 H2 H3 H4 H5 H6 H7].
    match goal with |- context [map ?f ary] => set (arx := map f ary) end.
    assert (Ha1 : length arx = cm_p P) by (unfold arx; rewrite map_length; exact A1).
    assert (Ha2 : Forall (fun x : nvec => length x = d) arx).
    { apply Forall_forall. intros y Hy. apply in_map_iff in Hy. destruct Hy as (z & <- & Hz).
      rewrite Forall_forall in A2. specialize (A2 z Hz). lens. }
    clearbody arx.
    eapply safe_bind; [apply safe_cma_fitness; assumption|]. intros [[fit valid] ps'] (F1 & F2 & F3).
    cbn [fst snd] in *.
    eapply safe_bind; [apply safe_rec_write|]. intros r _.
    eapply safe_bind; [apply safe_hist_set|]. intros h _.
    destruct (vd_sigma _ _ _) as [[ps sigma] cond].
    set (pc := if cond then _ else _).
    assert (Hpc : length pc = d) by (unfold pc; destruct cond; lens). clearbody pc.
    set (dx := vsub _ _). assert (Hdx : length dx = d) by (unfold dx; lens). clearbody dx.
    set (ysel := map _ _).
    destruct (vd_update_len vmax vmin (vd_c1 (nN d) (cm_mueff P)) (vd_cmu (nN d) (cm_mueff P)) (cm_w P) ysel pc cond
               (vs_dvec s) (vs_vvec s) (vs_nv2 s) (vs_nv s) (vs_vn s) (vs_vnn s) Hpc H3 H4 H5 H6) as [U1 U2].
    destruct (vd_update _ _ _ _ _ _ _ _ _ _ _ _ _ _ _) as [vvec dvec]. cbn [fst snd] in U1, U2.
    apply safe_ret. cbn [fst vs_valid vs_fit vs_index]. split; constructor; cbn; auto; try lens.
    pose proof (co_p _ HP). vlia.
  Qed.
End DimsCma.

(** ** Whole runs *)
Section RunCma.
  Context {N : Num} {E : Env N}.
  Context (HE : EnvOK).
  Notation nvec := (@vec (@num_arith N)).
  Notation nmat := (@matrix (@num_arith N)).

  Definition is_pen (A : CMAArgs) : bool :=
    match a_constraints (caa A) with Some s => String.eqb s "Penalize" | None => false end.

  Context (A : CMAArgs) (rows : nmat) (Hb : a_bounds (caa A) = D2 2 rows).
  Let d := length rows.
  Let xm := cma_xm (lows rows) (ups rows).
  Let xstd := cma_xstd (lows rows) (ups rows).
  Context (Pv Pe : nvec -> Prop).
  Context (HPv : forall x : nvec, length x = d -> Pv (if is_pen A then map clip1 x else x)).
  Context (HPe : forall x, Pv x -> Pe (unstandardize xm xstd x)).
  Context (HB : a_backend (caa A) = Some "mpi"%string -> BcastKeeps Pe).
  Let Pc (X : nmat) (st : CbState) := length X = Z.to_nat (a_popsize (caa A)) /\ Forall Pe X /\ Pe (cb_x st).

  Lemma safe_cma_check : safe Pe Pc (cma_check A)
    (fun _ => forall x, a_x0 (caa A) = Some x -> length (nd_vec x) = d).
  Proof.
    unfold cma_check. cbv zeta.
    eapply safe_bind; [apply (safe_raise_if _ _ _ _ (fun _ => True)); auto|]; intros _ _.
    eapply safe_bind; [apply (safe_raise_if _ _ _ _ (fun _ => True)); auto|]; intros _ _.
    eapply safe_bind.
    { apply (safe_raise_if _ _ _ _ (fun _ => forall x, a_x0 (caa A) = Some x -> length (nd_vec x) = d)).
      intros H x Hx. rewrite Hx in H. apply orb_false_elim in H. destruct H as [H1 H2].
      apply negb_false_iff in H1, H2. destruct x as [?|v|? ?]; try discriminate.
      apply Nat.eqb_eq in H2. rewrite Hb in H2. exact H2. }
    intros ? HA. cbv beta in HA.
    eapply safe_bind; [apply (safe_raise_if _ _ _ _ (fun _ => True)); auto|]; intros _ _.
    eapply safe_bind; [apply (safe_raise_if _ _ _ _ (fun _ => True)); auto|]; intros _ _.
    eapply safe_conseq; [apply safe_seed_and_cb|]. auto.
  Qed.

  Lemma lows_len' : length (lows rows) = d. Proof. apply map_length. Qed.
  Lemma ups_len' : length (ups rows) = d. Proof. apply map_length. Qed.
  Lemma xm_len : length xm = d.
  Proof. unfold xm, cma_xm. rewrite map2_length. pose proof lows_len'. pose proof ups_len'. vlia. Qed.
  Lemma xstd_len : length xstd = d.
  Proof. unfold xstd, cma_xstd. rewrite map2_length. pose proof lows_len'. pose proof ups_len'. vlia. Qed.

  Lemma safe_cma_setup : (forall x, a_x0 (caa A) = Some x -> length (nd_vec x) = d) ->
    safe Pe Pc (cma_setup A)
      (fun r => length (fst r) = d /\ cm_d (snd r) = d /\ cm_pen (snd r) = is_pen A /\
                cm_xm (snd r) = xm /\ cm_xstd (snd r) = xstd /\ ModeKeeps Pe (cm_mode (snd r)) /\
                cm_p (snd r) = Z.to_nat (a_popsize (caa A))).
  Proof.
    intros Hx0. unfold cma_setup. cbv zeta.
    eapply safe_bind; [apply (safe_eval_kindM _ _ HE _ _ _ Pe), HB|]. intros mode [HM _].
    eapply safe_bind; [apply safe_unpack|]. intros lu (rows' & Hr & ->).
    rewrite Hb in Hr. injection Hr as <-.
    eapply safe_bind with (R := fun p => p = is_pen A).
    { unfold cma_cons_check, is_pen. destruct (a_constraints (caa A)) as [c|]; [|apply safe_ret; reflexivity].
      destruct (String.eqb c "Penalize"); [apply safe_ret; reflexivity|apply safe_raise]. }
    intros pen ->.
    eapply safe_bind with (R := fun m => length m = d).
    { destruct (a_x0 (caa A)) as [x|].
      - apply safe_ret. unfold standardize, vdiv, vsub. rewrite !map2_length. specialize (Hx0 x eq_refl).
        pose proof xm_len. pose proof xstd_len. unfold xm, xstd in *. vlia.
      - eapply safe_conseq; [apply (safe_replicateM _ _ _ _ (fun _ => True))|].
        + unfold uniform. eapply safe_bind; [apply (safe_draw _ _ _ (fun _ => True)); auto|]. intros; apply safe_ret; exact I.
        + intros m [Hm _]. rewrite Hb in Hm. exact Hm. }
    intros xmean Hm.
    eapply safe_bind; [apply (safe_orelse _ _ _ _ (fun _ => True)); auto|]. intros mu _.
    apply safe_ret. cbn [fst snd cm_d cm_pen cm_xm cm_xstd cm_mode cm_p].
    rewrite Hb. repeat split; auto; apply HM.
  Qed.

  Lemma safe_cma_alloc : safe Pe Pc (cma_alloc (caa A)) (fun _ => (0 < a_popsize (caa A))%Z).
  Proof.
    unfold cma_alloc. cbv zeta. eapply safe_bind; [apply safe_rec_alloc|]. intros nout _.
    eapply safe_bind; [apply (safe_raise_if _ _ _ _ (fun _ => True)); auto|]; intros _ _.
    eapply safe_bind; [apply (safe_raise_if _ _ _ _ (fun _ => (a_popsize (caa A) =? 0)%Z = false)); auto|]; intros ? H1.
    eapply safe_bind; [apply (safe_raise_if _ _ _ _ (fun _ => (a_popsize (caa A) <? 0)%Z = false)); auto|]; intros ? H2.
    eapply safe_bind; [apply (safe_orelse _ _ _ _ (fun _ => True)); auto|]. intros ilim _.
    apply safe_ret. apply Z.eqb_neq in H1. apply Z.ltb_ge in H2. lia.
  Qed.

  Lemma safe_cmaes (HEig : EighRows) : safe Pe Pc (cmaes_minimize A) (fun r => Pe (r_x r)).
  Proof.
    unfold cmaes_minimize. eapply safe_bind; [apply safe_cma_check|]. intros ? Hx0. cbv beta in Hx0.
    unfold cmaes. cbv zeta. eapply safe_bind; [apply safe_cma_setup, Hx0|].
    intros [xmean P0] (S1 & S2 & S3 & S4 & S5 & S6 & S7). cbn [fst snd] in *.
    eapply safe_bind; [apply safe_cma_alloc|]. intros [nout ilim] Hp. cbv beta in Hp.
    set (P := mkCMAParams _ _ _ _ _ _ _ _ _ _ _ _ _ _ _). set (s := mkCMAS _ _ _ _ _ _ _ _ _ _ _ _ _ _ _ _ _).
    assert (HP : CmOK d (is_pen A) xm xstd Pe P).
    { constructor; cbn; auto. rewrite S7. lia. }
    assert (HI : CInv d s).
    { constructor; cbn; auto; rewrite ?repeat_length; auto; unfold eye, mtab; rewrite map_length, seq_length; auto. }
    assert (HD : forall s1 : CMAS, CPost Pv (cm_p P) (cs_valid s1) (cs_fit s1) (cs_index s1) -> Pe (d_x (cma_drv P) s1)).
    { intros s1 H1. cbn. unfold cma_un. rewrite (co_xm _ _ _ _ _ _ HP), (co_xstd _ _ _ _ _ _ HP). apply HPe.
      apply (cpost_best HE _ _ _ _ _ H1). }
    eapply safe_conseq.
    - apply (safe_drive2 _ _ (cma_drv P) (CInv d) (fun s1 => CPost Pv (cm_p P) (cs_valid s1) (cs_fit s1) (cs_index s1))).
      + intros it s1 H1. apply (safe_cma_step d (is_pen A) xm xstd Pv Pe HPv HPe Pc HEig P it s1 HP H1).
      + intros it s1 H1. apply safe_ret, H1.
      + intros it s1 H1 _. cbn [d_pop cma_drv]. split; [|split; [|apply HD, H1]].
        { rewrite map_length. refine (eq_trans (cp_p _ _ _ _ _ H1) _). exact S7. }
        apply (un_all d (is_pen A) xm xstd Pv Pe HPe P _ HP), (cp_v _ _ _ _ _ H1).
      + exact HI.
    - intros res (s1 & H1 & -> & _). apply HD, H1.
  Qed.

  Lemma safe_vdcma : safe Pe Pc (vdcma_minimize A) (fun r => Pe (r_x r)).
  Proof.
    unfold vdcma_minimize. eapply safe_bind; [apply safe_cma_check|]. intros ? Hx0. cbv beta in Hx0.
    unfold vdcma. cbv zeta. eapply safe_bind; [apply safe_cma_setup, Hx0|].
    intros [xmean P0] (S1 & S2 & S3 & S4 & S5 & S6 & S7). cbn [fst snd] in *.
    eapply safe_bind; [apply safe_randn_vec|]. intros z Hz. cbv beta in Hz.
    eapply safe_bind; [apply safe_cma_alloc|]. intros [nout ilim] Hp. cbv beta in Hp.
    set (P := mkCMAParams _ _ _ _ _ _ _ _ _ _ _ _ _ _ _). set (s := mkVDS _ _ _ _ _ _ _ _ _ _ _ _ _ _ _ _ _ _ _ _).
    assert (HP : CmOK d (is_pen A) xm xstd Pe P).
    { constructor; cbn; auto. rewrite S7. lia. }
    assert (HI : VInv d s).
    { constructor; cbn; auto; rewrite ?repeat_length, ?map_length; auto; rewrite Hz; auto. }
    assert (HD : forall s1 : VDS, CPost Pv (cm_p P) (vs_valid s1) (vs_fit s1) (vs_index s1) -> Pe (d_x (vd_drv P) s1)).
    { intros s1 H1. cbn. unfold cma_un. rewrite (co_xm _ _ _ _ _ _ HP), (co_xstd _ _ _ _ _ _ HP). apply HPe.
      apply (cpost_best HE _ _ _ _ _ H1). }
    eapply safe_conseq.
    - apply (safe_drive2 _ _ (vd_drv P) (VInv d) (fun s1 => CPost Pv (cm_p P) (vs_valid s1) (vs_fit s1) (vs_index s1))).
      + intros it s1 H1. apply (safe_vd_step d (is_pen A) xm xstd Pv Pe HPv HPe Pc P it s1 HP H1).
      + intros it s1 H1. apply safe_ret, H1.
      + intros it s1 H1 _. cbn [d_pop vd_drv]. split; [|split; [|apply HD, H1]].
        { rewrite map_length. refine (eq_trans (cp_p _ _ _ _ _ H1) _). exact S7. }
        apply (un_all d (is_pen A) xm xstd Pv Pe HPe P _ HP), (cp_v _ _ _ _ _ H1).
      + exact HI.
    - intros res (s1 & H1 & -> & _). apply HD, H1.
  Qed.
End RunCma.
