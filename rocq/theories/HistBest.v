(** Consequences of a history: best solution, NaN, status, record. *)
From Verif Require Import Base Num Env Common DE CPSO NA Hoare EvalRules Gen Steps Hist Runs Best
  Inst HistFacts.

Section BestFacts.
  Context {N : Num} {E : Env N} {L : OrdLaws num_arith}.
  Variable H : HParams.
  Notation p := (h_p H).
  Notation view := (h_view H).

  (** the restart formula never asks for all particles *)
  Definition RestartLaw (n : nat) : Prop :=
    forall it mx g nw, restart_count n it mx g = Some nw -> (nw <= Z.of_nat n - 1)%Z.

  Lemma firstn_evals_app (n : nat) (l1 l2 : list (vec * T)) :
    n <= length l1 -> firstn n (l1 ++ l2) = firstn n l1.
  Proof. intros Hn. rewrite firstn_app. replace (n - length l1) with 0 by lia. cbn. apply app_nil_r. Qed.

  Lemma in_perm_iff {A} (l1 l2 : list A) : Permutation l1 l2 -> forall z, In z l1 <-> In z l2.
  Proof. intros Hp z. split; apply Permutation_in; [exact Hp|symmetry; exact Hp]. Qed.

  (** The initial values are the first [p] ones. *)
  Definition InitNum (t : list event) : Prop := Forall (fun z => isnum (snd z)) (firstn p (evals t)).

  Lemma snd_combine_Forall (X : matrix) (f : vec) (P : T -> Prop) :
    length X = length f -> Forall (fun z => P (snd z)) (combine (map view X) f) -> Forall P f.
  Proof.
    revert f; induction X as [|x X IH]; intros [|y f] Hl HF; cbn in *; try discriminate; auto.
    inversion HF; subst. constructor; auto.
  Qed.

  Lemma Hist_BInv comp it q r st pop t :
    h_mode H <> Mpi -> 1 <= p -> Between H comp ->
    (comp = true -> ArgsortOK /\ RestartLaw p /\ isnum (nlit 1 30)) ->
    Hist H it q r st pop t ->
    InitNum t -> Small comp (evals t) ->
    BInv comp view p q (evals t).
  Proof.
    intros Hm Hp HB HR Hh. 
    induction Hh as [X X' f evs r HX HX' Hf Hc Hs Hev HC0 Hrec Xk HXk HXe q
                   |it q r pop t q1 q' st evs cand cf r' Hh IH Hb HG HC Hrec]; intros Hn HS.
    - destruct (Hev Hm) as (-> & l & -> & Hl & _).
      pose proof (cbe_evals H 1 q r (h_pop0 H X)) as [H1 H2].
      assert (Xk = X) by (destruct HXe; congruence). subst Xk.
      unfold InitNum in Hn. rewrite evals_app, evals_ok, H1, app_nil_r in *.
      unfold q. apply BInv_init; auto.
      + apply (snd_combine_Forall X); [congruence|].
        rewrite firstn_all2 in Hn.
        * eapply Permutation_Forall; [exact Hl|exact Hn].
        * rewrite (Permutation_length Hl), combine_length, map_length. lia.
      + apply in_perm_iff, Hl.
    - destruct (gs_ev _ _ _ _ _ _ _ _ _ _ _ _ _ _ HG Hm) as (l & -> & Hl & _).
      pose proof (cbe_evals H (it + 1) q' r' (h_pop H q' cand)) as [H1 H2].
      pose proof (Hist_status _ _ _ _ _ _ _ Hh) as [Hit' _].
      destruct (Hist_evals H _ _ _ _ _ _ Hm Hh) as [Hlen _].
      unfold InitNum in *. rewrite !evals_app, H1, evals_ok, app_nil_r in *.
      rewrite firstn_evals_app in Hn by nia.
      assert (HS0 : Small comp (evals t)).
      { eapply Small_incl; [|exact HS]. intros z Hz; apply in_or_app; auto. }
      specialize (IH Hn HS0).
      assert (I1 : BInv comp view p q1 (evals t)).
      { destruct (HB _ _ _ Hb) as [->|(Hcm & g & nw & Y & Hrc & Hpos & HY & Hx & Hff & Hbb & Hbf)];
          [exact IH|].
        destruct (HR Hcm) as (HA & HRL & Hbig). subst comp.
        apply (BInv_restart view p q q1 (evals t) Y (Z.to_nat nw)); auto.
        specialize (HRL _ _ _ _ Hrc). lia. }
      assert (Hsame : forall z, In z (evals t ++ combine (map view cand) cf) <-> In z (evals t ++ l)).
      { intros z. rewrite !in_app_iff, (in_perm_iff _ _ Hl z). tauto. }
      apply (BInv_same _ _ _ _ (evals t ++ combine (map view cand) cf)); [exact Hsame|].
      pose proof (BInv_gen comp view p q1 (evals t) (h_sync H) (it + 1) (h_mx H) (h_xtol H)
         (h_ftol H) cand cf I1 (gs_len _ _ _ _ _ _ _ _ _ _ _ _ _ _ HG)
         (gs_lenf _ _ _ _ _ _ _ _ _ _ _ _ _ _ HG)) as Hg.
      rewrite (gs_next _ _ _ _ _ _ _ _ _ _ _ _ _ _ HG) in Hg. apply Hg.
      eapply Small_incl; [|exact HS]. intros z Hz; apply Hsame; exact Hz.
  Qed.

  (** ** The best value only improves *)
  Lemma Hist_mono comp it q r st pop t :
    h_mode H <> Mpi -> 1 <= p -> Between H comp ->
    (comp = true -> ArgsortOK /\ RestartLaw p /\ isnum (nlit 1 30)) ->
    Hist H it q r st pop t -> InitNum t -> Small comp (evals t) ->
    forall k X s, nth_error (cbs t) k = Some (X, s) -> nleb (qbf q) (cb_fun s) = true.
  Proof.
    intros Hm Hp HB HR Hh Hn HS k X s Hk.
    destruct (cbs_split _ _ _ _ Hk) as (t1 & e & t2 & Ht & _).
    pose proof (Hist_BInv _ _ _ _ _ _ _ Hm Hp HB HR Hh Hn HS) as I.
    destruct (Hist_cb_at H _ _ _ _ _ _ Hh _ _ _ _ _ Ht) as [(-> & -> & -> & ->)|(i & q' & r' & I1 & I2 & -> & ->)].
    - cbn. apply (bi_bnum _ _ _ _ _ I).
    - cbn. destruct (Hist_evals H _ _ _ _ _ _ Hm I1) as [Hlen _].
      assert (Hsplit : t = (t1 ++ [ECb X (h_state H i q' r') None]) ++ t2).
      { rewrite Ht, <- app_assoc. reflexivity. }
      assert (I' : BInv comp view p q' (evals (t1 ++ [ECb X (h_state H i q' r') None]))).
      { apply (Hist_BInv comp i q' r' None X); auto.
        - unfold InitNum in *. rewrite Hsplit, evals_app in Hn.
          rewrite firstn_evals_app in Hn by nia. exact Hn.
        - eapply Small_incl; [|exact HS]. rewrite Hsplit, (evals_app (t1 ++ _)).
          intros z Hz; apply in_or_app; auto. }
      apply (bi_min _ _ _ _ _ I (view (qb q')) (qbf q')).
      + rewrite Hsplit, evals_app. apply in_or_app; left. apply (bi_best _ _ _ _ _ I').
      + apply (bi_bnum _ _ _ _ _ I').
  Qed.

  (** ** NaN *)
  Definition NanInv (q : Q4) : Prop :=
    ~ isnum (qbf q) /\ exists i, i < p /\ ~ isnum (nth i (qf q) n0).

  Lemma async1_nan xtol ftol i c cf q :
    NanInv q -> NanInv (fst (async1 xtol ftol i c cf q)).
  Proof.
    intros [Hb (j & Hj & Hn)]. unfold async1, async_sel.
    destruct (nleb cf (nth i (qf q) n0)) eqn:Hc; [|split; eauto].
    rewrite (nan_le_r cf (qbf q) Hb). cbn. split; [exact Hb|].
    exists j. split; [exact Hj|]. cbn. rewrite upd_nth_other; [exact Hn|].
    intros ->. apply Hn. eapply le_num_r; exact Hc.
  Qed.
  Lemma asyncs_nan xtol ftol l : forall i q st,
    NanInv q -> NanInv (fst (asyncs xtol ftol i l q st)).
  Proof.
    induction l as [|[c f] l IH]; intros i q st Hn; [exact Hn|].
    cbn [asyncs]. cbn zeta. apply IH, async1_nan, Hn.
  Qed.

  Lemma gen_nan sync it mx xtol ftol cand cf q :
    length cand = p -> length cf = p -> QLen p q ->
    NanInv q -> NanInv (fst (gen_next sync it mx xtol ftol cand cf q)).
  Proof.
    intros Hc Hf [Hx Hq] Hn. destruct sync; cbn [gen_next].
    - destruct Hn as [Hb (j & Hj & Hn)].
      assert (Hj' : ~ isnum (nth j (sel_fun cf (qf q)) n0)).
      { rewrite (sel_fun_nth cf (qf q) j p) by auto. rewrite (nan_lt_r _ _ Hn). exact Hn. }
      split; cbn.
      + apply argmin_nan. exists j. rewrite (sel_fun_length _ _ p) by auto. auto.
      + exists j; auto.
    - cbn zeta. cbn [fst]. apply asyncs_nan, Hn.
  Qed.

  Lemma Hist_nan it q r st pop t :
    h_mode H <> Mpi -> Between H false -> Hist H it q r st pop t ->
    Exists (fun z => ~ isnum (snd z)) (firstn p (evals t)) -> NanInv q.
  Proof.
    intros Hm HB Hh.
    induction Hh as [X X' f evs r HX HX' Hf Hc Hs Hev HC0 Hrec Xk HXk HXe q
                   |it q r pop t q1 q' st evs cand cf r' Hh IH Hb HG HC Hrec]; intros Hn.
    - destruct (Hev Hm) as (-> & l & -> & Hl & _).
      pose proof (cbe_evals H 1 q r (h_pop0 H X)) as [H1 H2].
      rewrite evals_app, evals_ok, H1, app_nil_r in Hn.
      rewrite firstn_all2 in Hn
        by (rewrite (Permutation_length Hl), combine_length, map_length; lia).
      apply Exists_exists in Hn. destruct Hn as ([x y] & Hin & Hy). cbn in Hy.
      apply (Permutation_in _ Hl) in Hin.
      destruct (In_nth _ _ (view [], n0) Hin) as (i & Hi & Heq).
      rewrite combine_length, map_length in Hi.
      rewrite combine_nth in Heq by (rewrite map_length; congruence). injection Heq as _ Hyy.
      rewrite <- Hyy in Hy.
      split; cbn.
      + apply argmin_nan. exists i. split; [lia|exact Hy].
      + exists i. split; [lia|exact Hy].
    - destruct (Hist_evals H _ _ _ _ _ _ Hm Hh) as [Hlen _].
      pose proof (Hist_status _ _ _ _ _ _ _ Hh) as [Hit' _].
      rewrite !evals_app in Hn. rewrite firstn_evals_app in Hn by nia.
      specialize (IH Hn).
      assert (q1 = q) by (destruct (HB _ _ _ Hb) as [->|[Hcc _]]; [reflexivity|discriminate]). subst q1.
      pose proof (gen_nan (h_sync H) (it + 1) (h_mx H) (h_xtol H) (h_ftol H) cand cf q
        (gs_len _ _ _ _ _ _ _ _ _ _ _ _ _ _ HG) (gs_lenf _ _ _ _ _ _ _ _ _ _ _ _ _ _ HG)
        (Hist_len H false _ _ _ _ _ _ HB Hh) IH) as Hg.
      rewrite (gs_next _ _ _ _ _ _ _ _ _ _ _ _ _ _ HG) in Hg. exact Hg.
  Qed.
End BestFacts.

Section StatusFacts.
  Context {N : Num} {E : Env N}.
  Variable H : HParams.
  Notation p := (h_p H).
  Notation view := (h_view H).

  (** ** Deferred mode *)
  Lemma sync_gen_status it mx xtol ftol cand cf q q' st :
    gen_next true it mx xtol ftol cand cf q = (q', st) ->
    match st with
    | None => nleb (qbf q') ftol = false /\ (it < mx)%Z
    | Some c => (c = 0%Z /\ nleb (vnorm (vsub (qb q) (qb q'))) xtol = true /\ nleb (qbf q') ftol = true)
             \/ (c = 1%Z /\ nleb (qbf q') ftol = true /\ nleb (vnorm (vsub (qb q) (qb q'))) xtol = false)
             \/ (c = (-1)%Z /\ nleb (qbf q') ftol = false /\ (mx <= it)%Z)
    end.
  Proof.
    cbn [gen_next]. unfold sync_next. intros Heq. injection Heq as <- <-. cbn.
    apply sync_status_cases.
  Qed.

  Lemma Hist_sync_status it q r st pop t :
    h_sync H = true -> Hist H it q r st pop t -> (2 <= it)%Z ->
    match st with
    | None => nleb (qbf q) (h_ftol H) = false
    | Some c => c = (-1)%Z -> nleb (qbf q) (h_ftol H) = false
    end.
  Proof.
    intros Hsy Hh Hit.
    destruct Hh as [X X' f evs r HX HX' Hf Hc Hs Hev HC0 Hrec Xk HXk HXe q
                   |it q r pop t q1 q' st evs cand cf r' Hh Hb HG HC Hrec]; [lia|].
    pose proof (gs_next _ _ _ _ _ _ _ _ _ _ _ _ _ _ HG) as Hn. rewrite Hsy in Hn.
    apply sync_gen_status in Hn. destruct st as [c|]; [|apply Hn].
    intros ->. destruct Hn as [[Hc _]|[[Hc _]|(_ & Hn & _)]]; try discriminate. exact Hn.
  Qed.

  (** the stopping codes and what they mean *)
  Lemma Hist_stop it q r c pop t :
    Hist H it q r (Some c) pop t ->
    (c = 0%Z \/ c = 1%Z) /\ nleb (qbf q) (h_ftol H) = true \/ (c = (-1)%Z /\ (h_mx H <= it)%Z).
  Proof.
    intros Hh.
    inversion Hh as [|it0 q0 r0 pop0 t0 q1 q' st evs cand cf r' Hh0 Hb HG HC Hrec]; subst.
    pose proof (gs_next _ _ _ _ _ _ _ _ _ _ _ _ _ _ HG) as Hn. revert Hn.
    destruct (h_sync H); intros Hn.
    - apply sync_gen_status in Hn.
      destruct Hn as [(-> & _ & Hn)|[(-> & Hn & _)|(-> & _ & Hn)]]; auto.
    - cbn [gen_next] in Hn. cbn zeta in Hn. injection Hn as Hq Hst.
      destruct (snd (asyncs (h_xtol H) (h_ftol H) 0 (combine cand cf) q1 None)) as [s|] eqn:Hs;
        cbn [last_status] in Hst.
      + injection Hst as ->. left.
        destruct (rev (combine cand cf)) as [|[x y] l] eqn:Hrev.
        { apply (f_equal (@rev _)) in Hrev. rewrite rev_involutive in Hrev. rewrite Hrev in Hs.
          discriminate. }
        apply (f_equal (@rev _)) in Hrev. rewrite rev_involutive in Hrev. cbn [rev] in Hrev.
        rewrite Hrev, asyncs_app in Hs, Hq. cbn [asyncs] in Hs, Hq. cbn zeta in Hs, Hq.
        cbn [fst snd] in Hs, Hq.
        set (i := 0 + length (rev l)) in *.
        set (qq := fst (asyncs _ _ 0 (rev l) q1 None)) in *.
        pose proof (async1_status (h_xtol H) (h_ftol H) i x y qq) as Ha. rewrite Hs in Ha.
        destruct Ha as (Hc & Hle & Hbf & Hbb & _). rewrite <- Hq. rewrite Hbf. auto.
      + destruct (h_mx H <=? it0 + 1)%Z eqn:Hmx; [|discriminate]. injection Hst as <-.
        apply Z.leb_le in Hmx. auto.
  Qed.

  (** ** Immediate mode: convergence comes from the last individual *)
  Lemma Hist_async_stop it q r c pop t :
    h_sync H = false -> h_mode H = Serial -> Hist H it q r (Some c) pop t ->
    (c = 0%Z \/ c = 1%Z) ->
    exists q0 r0 pop0 t0 q1 l i x,
      Hist H (it - 1) q0 r0 None pop0 t0 /\ h_B H (it - 1) q0 q1 /\
      i + 1 = p /\ i = length l /\
      evals t = evals t0 ++ map (fun z => (view (fst z), snd z)) l ++ [(view x, qbf q)] /\
      qb q = x /\
      nleb (qbf q) (h_ftol H) = true /\
      (c = 0%Z -> nleb (vnorm (vsub (qb (fst (asyncs (h_xtol H) (h_ftol H) 0 l q1 None))) x))
                       (h_xtol H) = true).
  Proof.
    intros Hsy Hmo Hh Hc.
    inversion Hh as [|it0 q0 r0 pop0 t0 q1 q' st evs cand cf r' Hh0 Hb HG HC Hrec]; subst.
    pose proof (gs_next _ _ _ _ _ _ _ _ _ _ _ _ _ _ HG) as Hn. rewrite Hsy in Hn.
    cbn [gen_next] in Hn. cbn zeta in Hn. injection Hn as Hq Hst.
    destruct (snd (asyncs (h_xtol H) (h_ftol H) 0 (combine cand cf) q1 None)) as [s|] eqn:Hs;
      cbn [last_status] in Hst.
    2: { destruct (h_mx H <=? it0 + 1)%Z; [|discriminate]. injection Hst as <-. lia. }
    injection Hst as ->.
    destruct (gs_ev _ _ _ _ _ _ _ _ _ _ _ _ _ _ HG) as (lev & -> & _ & Hser); [congruence|].
    specialize (Hser Hmo). rewrite combine_view in Hser.
    assert (Hlen : length (combine cand cf) = p).
    { rewrite combine_length. pose proof (gs_len _ _ _ _ _ _ _ _ _ _ _ _ _ _ HG).
      pose proof (gs_lenf _ _ _ _ _ _ _ _ _ _ _ _ _ _ HG). lia. }
    destruct (rev (combine cand cf)) as [|[x y] l] eqn:Hrev.
    { apply (f_equal (@rev _)) in Hrev. rewrite rev_involutive in Hrev. rewrite Hrev in Hs.
      discriminate. }
    apply (f_equal (@rev _)) in Hrev. rewrite rev_involutive in Hrev. cbn [rev] in Hrev.
    rewrite Hrev, asyncs_app in Hs, Hq. cbn [asyncs] in Hs, Hq. cbn zeta in Hs, Hq.
    cbn [fst snd] in Hs, Hq. rewrite Hrev in Hser, Hlen.
    set (i := 0 + length (rev l)) in *.
    set (qq := fst (asyncs _ _ 0 (rev l) q1 None)) in *.
    pose proof (async1_status (h_xtol H) (h_ftol H) i x y qq) as Ha. rewrite Hs in Ha.
    destruct Ha as (Hcc & Hle & Hbf & Hbb & _ & _ & Hx0).
    exists q0, r0, pop0, t0, q1, (rev l), i, x.
    assert (Hq1 : qbf q = y) by (rewrite <- Hq; exact Hbf).
    assert (Hq2 : qb q = x) by (rewrite <- Hq; exact Hbb).
    rewrite Hq1, Hq2. replace (it0 + 1 - 1)%Z with it0 by lia.
    split; [exact Hh0|]. split; [exact Hb|]. split.
    { rewrite app_length in Hlen. cbn in Hlen. unfold i. lia. }
    split; [reflexivity|]. split.
    { destruct (cbe_evals H (it0 + 1) q r (h_pop H q cand)) as [H1 _].
      rewrite !evals_app, H1, evals_ok, app_nil_r, Hser, map_app. reflexivity. }
    split; [reflexivity|]. split; [exact Hle|]. exact Hx0.
  Qed.
End StatusFacts.

(** ** The record *)
Section RecFacts.
  Context {N : Num} {E : Env N}.
  Variable H : HParams.
  Notation p := (h_p H).
  Notation view := (h_view H).

  (** [Rows n pop pf best rows frows]: what one recording of [n] rows stores *)
  Definition Rows (n : Z) (pop : matrix) (pf : vec) (best : vec * T) (rows : matrix) (frows : vec)
    : Prop :=
    if (0 <? n)%Z then
      fit_rows (Z.to_nat n) (firstn (Z.to_nat n) pop) = Some rows /\
      fit_rows (Z.to_nat n) (firstn (Z.to_nat n) pf) = Some frows
    else rows = [fst best] /\ frows = [snd best].

  Lemma RecW_some (s : St) n mx it pop pf best xs fs r' :
    RecW (Some n) mx it pop pf best (Some (xs, fs)) r' ->
    (it <= mx)%Z /\ exists rows frows, Rows n pop pf best rows frows /\
      r' = Some (xs ++ [rows], fs ++ [frows]).
  Proof.
    unfold RecW, Rows, rec_write, rec_put. intros HR. specialize (HR s). unfold bind in HR.
    destruct (mx <? it)%Z eqn:Hm; [discriminate|]. apply Z.ltb_ge in Hm. split; [exact Hm|].
    destruct (0 <? n)%Z.
    - destruct (fit_rows (Z.to_nat n) (firstn (Z.to_nat n) pop)) as [rows|]; [|discriminate].
      cbn in HR. unfold ret in HR.
      destruct (fit_rows (Z.to_nat n) (firstn (Z.to_nat n) pf)) as [frows|]; [|discriminate].
      cbn in HR. injection HR as <-. exists rows, frows. auto.
    - cbn in HR. injection HR as <-. exists [fst best], [snd best]. auto.
  Qed.
  Lemma RecW_noneN (s : St) mx it pop pf best r r' : RecW None mx it pop pf best r r' -> r' = None.
  Proof. unfold RecW, rec_write. intros HR. specialize (HR s). cbn in HR. injection HR as <-. reflexivity. Qed.

  Lemma fit_rows_spec {A} n (l rows : list A) :
    1 <= n -> 2 <= length l -> fit_rows n (firstn n l) = Some rows ->
    rows = firstn n l /\ n <= length l.
  Proof.
    intros Hn Hl. unfold fit_rows. rewrite firstn_length.
    destruct (Nat.min n (length l) =? n) eqn:Hmin.
    - apply Nat.eqb_eq in Hmin. intros Heq; injection Heq as <-. split; [reflexivity|lia].
    - apply Nat.eqb_neq in Hmin.
      destruct (firstn n l) as [|a [|b l']] eqn:Hf; try discriminate.
      apply (f_equal (@length _)) in Hf. rewrite firstn_length in Hf. cbn in Hf. lia.
  Qed.

  Lemma Rows_spec n pop pf best rows frows :
    2 <= p -> length pop = p -> length pf = p -> Rows n pop pf best rows frows ->
    (n <= Z.of_nat p)%Z /\ length rows = Nat.max 1 (Z.to_nat n) /\ length frows = Nat.max 1 (Z.to_nat n) /\
    (forall j, j < length rows ->
       (j < p /\ nth j rows [] = nth j pop [] /\ nth j frows n0 = nth j pf n0) \/
       (nth j rows [] = fst best /\ nth j frows n0 = snd best)).
  Proof.
    intros Hp Hx Hf. unfold Rows. destruct (0 <? n)%Z eqn:Hn.
    - apply Z.ltb_lt in Hn. intros [H1 H2].
      assert (Hxl : @length vec pop = p) by exact Hx.
      assert (Hfl : @length T pf = p) by exact Hf.
      apply (@fit_rows_spec vec) in H1; [|lia|lia]. apply (@fit_rows_spec T) in H2; [|lia|lia]. 
      destruct H1 as [-> Hl1], H2 as [-> Hl2]. rewrite !firstn_length.
      split; [lia|]. split; [lia|]. split; [lia|].
      intros j Hj. left. split; [lia|].
      split; [|rewrite <- (firstn_skipn (Z.to_nat n) pf) at 2; rewrite app_nth1; [reflexivity|rewrite firstn_length; lia]].
      rewrite <- (firstn_skipn (Z.to_nat n) pop) at 2.
      symmetry. apply app_nth1. rewrite firstn_length. lia.
    - apply Z.ltb_ge in Hn. intros [-> ->]. cbn [length].
      split; [lia|]. split; [lia|]. split; [lia|].
      intros [|j] Hj; [|lia]. right; auto.
  Qed.

  Lemma Rows_P (P : vec -> T -> Prop) n pop pf best rows frows :
    2 <= p -> length pop = p -> length pf = p -> Rows n pop pf best rows frows ->
    (forall j, j < p -> P (nth j pop []) (nth j pf n0)) -> P (fst best) (snd best) ->
    forall j, j < length rows -> P (nth j rows []) (nth j frows n0).
  Proof.
    intros H1 H2 H3 HR HP Hb j Hj. apply Rows_spec in HR; auto. destruct HR as (_ & _ & _ & HR).
    destruct (HR j Hj) as [(Hjp & E1 & E2)|[E1 E2]].
    - rewrite E1, E2. apply HP, Hjp.
    - rewrite E1, E2. exact Hb.
  Qed.

  (** every recorded row satisfies [P k] *)
  Definition RowsP (P : nat -> vec -> T -> Prop) (xs : list matrix) (fs : list vec) : Prop :=
    forall k rows frows, nth_error xs k = Some rows -> nth_error fs k = Some frows ->
      forall j, j < length rows -> P k (nth j rows []) (nth j frows n0).

  Lemma RowsP_snoc P xs fs rows frows :
    length xs = length fs -> RowsP P xs fs ->
    (forall j, j < length rows -> P (length xs) (nth j rows []) (nth j frows n0)) ->
    RowsP P (xs ++ [rows]) (fs ++ [frows]).
  Proof.
    intros Hl HP Hn k r f Hx Hf.
    destruct (Nat.lt_ge_cases k (length xs)) as [Hk|Hk].
    - rewrite nth_error_app1 in Hx by lia. rewrite nth_error_app1 in Hf by lia. eapply HP; eauto.
    - assert (Hlt : k < length (xs ++ [rows])) by (apply nth_error_Some; congruence).
      rewrite app_length in Hlt. cbn in Hlt. assert (k = length xs) by lia. subst k.
      rewrite nth_error_app2, Nat.sub_diag in Hx by lia.
      rewrite nth_error_app2, Hl, Nat.sub_diag in Hf by lia. cbn in Hx, Hf.
      injection Hx as <-. injection Hf as <-. exact Hn.
  Qed.
  Lemma RowsP_impl (P Q : nat -> vec -> T -> Prop) xs fs :
    (forall k x y, k < length xs -> P k x y -> Q k x y) -> RowsP P xs fs -> RowsP Q xs fs.
  Proof.
    intros Hi HP k r f Hx Hf j Hj. apply Hi; [|eapply HP; eauto].
    apply nth_error_Some. congruence.
  Qed.

  Lemma recp_len (c : PopCall) q cand :
    HistOf c H -> QLen p q -> length cand = p -> length (h_recp H q cand) = p.
  Proof.
    intros HH Hq Hc. pose proof (ho_rec _ _ HH) as Hr.
    destruct c; destruct Hr as (-> & _); cbn; try (destruct Hq; assumption); try assumption.
    rewrite map_length; assumption.
  Qed.

  Lemma Hist_rec c (s : St) it q r st pop t :
    HistOf c H -> Hist H it q r st pop t ->
    match h_nout H with
    | None => r = None
    | Some n => exists xs fs, r = Some (xs, fs) /\ length xs = Z.to_nat it /\
        length fs = Z.to_nat it /\ (it <= h_mx H)%Z /\ (n <= Z.of_nat p)%Z /\
        Forall (fun rows : matrix => length rows = Nat.max 1 (Z.to_nat n)) xs /\
        Forall (fun rows : vec => length rows = Nat.max 1 (Z.to_nat n)) fs
    end.
  Proof.
    intros HH Hh. assert (HB : Between H (pop_comp c)) by (exact (ho_B _ _ HH)).
    pose proof (ho_p2 _ _ HH) as Hp2.
    induction Hh as [X X' f evs r HX HX' Hf Hc Hs Hev HC0 Hrec Xk HXk HXe q
                   |it q r pop t q1 q' st evs cand cf r' Hh IH Hb HG HC Hrec].
    - destruct (h_nout H) as [n|]; [|apply (RecW_noneN s) in Hrec; exact Hrec].
      cbn [rec0] in Hrec. apply (RecW_some s) in Hrec. destruct Hrec as (Hit & rows & frows & HR & ->).
      exists [rows], [frows]. apply Rows_spec in HR; auto. destruct HR as (H1 & H2 & H3 & _).
      repeat split; auto.
    - destruct (h_nout H) as [n|]; [|apply (RecW_noneN s) in Hrec; exact Hrec].
      destruct IH as (xs & fs & -> & Hl1 & Hl2 & Hm & Hn & F1 & F2).
      pose proof (RecW_some s _ _ _ _ _ _ _ _ _ Hrec) as (Hit & rows & frows & HR & ->).
      pose proof (Hist_status _ _ _ _ _ _ _ Hh) as [Hit' _].
      apply Rows_spec in HR; auto.
      + destruct HR as (H1 & H2 & H3 & _). exists (xs ++ [rows]), (fs ++ [frows]).
        rewrite !app_length, Hl1, Hl2. cbn.
        repeat split; auto; try lia; apply Forall_app; auto.
      + apply (recp_len c); auto.
        * pose proof (gen_next_len (h_sync H) (it + 1) (h_mx H) (h_xtol H) (h_ftol H) cand cf q1 p
            (gs_len _ _ _ _ _ _ _ _ _ _ _ _ _ _ HG) (gs_lenf _ _ _ _ _ _ _ _ _ _ _ _ _ _ HG)
            (Between_len H _ _ _ _ HB Hb (Hist_len H _ _ _ _ _ _ _ HB Hh))) as Hl.
          rewrite (gs_next _ _ _ _ _ _ _ _ _ _ _ _ _ _ HG) in Hl. exact Hl.
        * apply (gs_len _ _ _ _ _ _ _ _ _ _ _ _ _ _ HG).
      + apply (gs_lenf _ _ _ _ _ _ _ _ _ _ _ _ _ _ HG).
  Qed.
End RecFacts.
