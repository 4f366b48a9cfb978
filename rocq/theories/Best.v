(** Best-so-far: what selection does to the kept solutions, in any arithmetic with [OrdLaws]. *)
From Verif Require Import Base Num Env Common DE CPSO NA Hoare EvalRules Gen Steps Hist Runs.

Section Argmin.
  Context {N : Num} {L : OrdLaws num_arith}.

  Lemma nisnan_true (x : T) : nisnan x = true <-> ~ isnum x.
  Proof.
    pose proof (nisnan_isnum x) as H. destruct (nisnan x); split; intros.
    - intros Hn. apply H in Hn. discriminate.
    - reflexivity.
    - discriminate.
    - exfalso. apply H0, H. reflexivity.
  Qed.

  Lemma argmin_from_min l : forall mp ip i pre,
    length pre = i -> ip < i -> nth ip pre n0 = mp -> isnum mp ->
    Forall isnum l -> (forall j, j < i -> nleb mp (nth j pre n0) = true) ->
    forall j, j < i + length l ->
      nleb (nth (argmin_from mp ip i l) (pre ++ l) n0) (nth j (pre ++ l) n0) = true.
  Proof.
    induction l as [|v l IH]; intros mp ip i pre Hl Hip Hmp Hn HF Hmin j Hj; cbn [argmin_from].
    - rewrite app_nil_r. cbn in Hj. rewrite Hmp. apply Hmin; lia.
    - inversion HF as [|? ? Hv HFl]; subst.
      assert (Happ : pre ++ v :: l = (pre ++ [v]) ++ l) by (rewrite <- app_assoc; reflexivity).
      destruct (nleb (nth ip pre n0) (v)) eqn:Hc.
      + rewrite Happ. apply (IH (nth ip pre n0)); auto.
        * rewrite app_length; cbn; lia.
        * rewrite app_nth1 by lia. reflexivity.
        * intros j' Hj'. destruct (Nat.lt_ge_cases j' (length pre)) as [H1|H1].
          -- rewrite app_nth1 by lia. auto.
          -- rewrite app_nth2 by lia. replace (j' - length pre) with 0 by lia. exact Hc.
        * cbn [length] in Hj. lia.
      + destruct (nisnan v) eqn:Hnan; [apply nisnan_true in Hnan; tauto|].
        assert (Hlt : nleb v (nth ip pre n0) = true).
        { apply ol_lt_le, nle_lt; auto. }
        rewrite Happ. apply (IH v); auto.
        * rewrite app_length; cbn; lia.
        * rewrite app_nth2, Nat.sub_diag by lia. reflexivity.
        * intros j' Hj'. destruct (Nat.lt_ge_cases j' (length pre)) as [H1|H1].
          -- rewrite app_nth1 by lia. eapply ol_le_trans; [exact Hlt|]. apply Hmin; lia.
          -- rewrite app_nth2 by lia. replace (j' - length pre) with 0 by lia. exact Hv.
        * cbn [length] in Hj. lia.
  Qed.

  (** on numeric vectors [np.argmin] gives a minimum *)
  Lemma argmin_min (v : vec) :
    Forall isnum v -> forall j, j < length v -> nleb (nth (argmin v) v n0) (nth j v n0) = true.
  Proof.
    destruct v as [|a v]; intros HF j Hj; [cbn in Hj; lia|].
    inversion HF as [|? ? Ha HFv]; subst. unfold argmin.
    destruct (nisnan a) eqn:Hnan; [apply nisnan_true in Hnan; tauto|].
    apply (argmin_from_min v a 0 1 [a]); auto.
    intros [|j'] Hj'; [exact Ha|lia].
  Qed.

  Lemma argmin_from_nan l : forall mp ip i,
    isnum mp -> (exists j, j < length l /\ ~ isnum (nth j l n0)) ->
    i <= argmin_from mp ip i l /\ argmin_from mp ip i l - i < length l /\
    ~ isnum (nth (argmin_from mp ip i l - i) l n0).
  Proof.
    induction l as [|v l IH]; intros mp ip i Hmp (j & Hj & Hnan); [cbn in Hj; lia|].
    cbn [argmin_from].
    destruct (nleb (mp) (v)) eqn:Hc.
    - destruct j as [|j]; [exfalso; apply Hnan; eapply le_num_r; exact Hc|].
      destruct (IH mp ip (S i) Hmp) as (H1 & H2 & H3).
      { exists j. cbn in Hj, Hnan. split; [lia|exact Hnan]. }
      split; [lia|].
      replace (argmin_from mp ip (S i) l - i) with (S (argmin_from mp ip (S i) l - S i)) by lia.
      cbn. split; [lia|exact H3].
    - destruct (nisnan v) eqn:Hv.
      + rewrite Nat.sub_diag. cbn. repeat split; [lia|lia|apply nisnan_true; exact Hv].
      + apply nisnan_isnum in Hv.
        destruct j as [|j]; [exfalso; apply Hnan; exact Hv|].
        destruct (IH v i (S i) Hv) as (H1 & H2 & H3).
        { exists j. cbn in Hj, Hnan. split; [lia|exact Hnan]. }
        split; [lia|].
        replace (argmin_from v i (S i) l - i) with (S (argmin_from v i (S i) l - S i)) by lia.
        cbn. split; [lia|exact H3].
  Qed.

  (** with a NaN present [np.argmin] points to a NaN *)
  Lemma argmin_nan (v : vec) :
    (exists j, j < length v /\ ~ isnum (nth j v n0)) -> ~ isnum (nth (argmin v) v n0).
  Proof.
    destruct v as [|a v]; intros (j & Hj & Hnan); [cbn in Hj; lia|]. unfold argmin.
    destruct (nisnan a) eqn:Ha; [apply nisnan_true in Ha; exact Ha|].
    apply nisnan_isnum in Ha. destruct j as [|j]; [tauto|].
    destruct (argmin_from_nan v a 0 1 Ha) as (H1 & H2 & H3).
    { exists j. cbn in Hj, Hnan. split; [lia|exact Hnan]. }
    replace (argmin_from a 0 1 v) with (S (argmin_from a 0 1 v - 1)) by lia. exact H3.
  Qed.

  Lemma sel_fun_nth cf xf i p :
    length cf = p -> length xf = p -> i < p ->
    nth i (sel_fun cf xf) n0
    = if nltb (nth i cf n0) (nth i xf n0) then nth i cf n0 else nth i xf n0.
  Proof. intros H1 H2 Hi. unfold sel_fun. rewrite (map2_nth _ _ _ _ n0 n0) by lia. reflexivity. Qed.

  Lemma sel_x_nth cand cf x xf i p :
    length cand = p -> length cf = p -> length x = p -> length xf = p -> i < p ->
    nth i (sel_x cand cf x xf) [] =
    if nltb (nth i cf n0) (nth i xf n0) then nth i cand [] else nth i x [].
  Proof.
    intros H1 H2 H3 H4 Hi. unfold sel_x.
    etransitivity; [apply (map2_nth _ _ _ i (([] : vec), n0) (([] : vec), n0) ([] : vec))|];
      try (rewrite combine_length; lia).
    rewrite !combine_nth by (rewrite ?H1, ?H2, ?H3, ?H4; reflexivity). reflexivity.
  Qed.
End Argmin.

Section BestInv.
  Context {N : Num} {L : OrdLaws num_arith}.

  (** [big]: the fitness of a restarted particle *)
  Notation big := (nlit 1 30).

  (** The invariant. [ev]: all evaluations so far; [comp]: restarts are possible. *)
  Record BInv (comp : bool) (view : vec -> vec) (p : nat) (q : Q4) (ev : list (vec * T)) : Prop := {
    bi_lx : length (qx q) = p;
    bi_lf : length (qf q) = p;
    bi_real : forall i, i < p ->
        In (view (nth i (qx q) []), nth i (qf q) n0) ev \/ (comp = true /\ nth i (qf q) n0 = big);
    bi_num : forall i, i < p -> isnum (nth i (qf q) n0);
    bi_best : In (view (qb q), qbf q) ev;
    bi_bnum : isnum (qbf q);
    bi_min : forall x y, In (x, y) ev -> isnum y -> nleb (qbf q) y = true;
    bi_wit : exists i, i < p /\ nleb (nth i (qf q) n0) (qbf q) = true }.

  Definition Small (comp : bool) (ev : list (vec * T)) : Prop :=
    comp = true -> forall x y, In (x, y) ev -> isnum y -> nltb y big = true.

  Lemma BInv_init comp view p X f ev :
    1 <= p -> length X = p -> length f = p -> Forall isnum f ->
    (forall z, In z ev <-> In z (combine (map view X) f)) ->
    BInv comp view p (mkQ4 X f (nth (argmin f) X []) (nth (argmin f) f n0)) ev.
  Proof.
    intros Hp HX Hf Hn Hev.
    assert (Ha : argmin f < p).
    { rewrite <- Hf. apply argmin_lt. intros ->; cbn in Hf; lia. }
    assert (Hin : forall i, i < p -> In (view (nth i X []), nth i f n0) ev).
    { intros i Hi. apply Hev.
      replace (view (nth i X []), nth i f n0) with (nth i (combine (map view X) f) (view [], n0)).
      - apply nth_In. rewrite combine_length, map_length. lia.
      - rewrite combine_nth by (rewrite map_length; lia). rewrite map_nth. reflexivity. }
    constructor; cbn; auto.
    - intros i Hi. rewrite Forall_nth' in Hn. apply Hn; lia.
    - rewrite Forall_nth' in Hn. apply Hn; lia.
    - intros x y Hxy _. apply Hev in Hxy.
      destruct (In_nth _ _ (view [], n0) Hxy) as (i & Hi & Heq).
      rewrite combine_length, map_length in Hi.
      rewrite combine_nth in Heq by (rewrite map_length; lia). injection Heq as _ <-.
      apply argmin_min; [exact Hn|lia].
    - exists (argmin f). split; [exact Ha|]. rewrite Forall_nth' in Hn. apply Hn; lia.
  Qed.

  Lemma BInv_sync comp view p q ev it mx xtol ftol cand cf :
    BInv comp view p q ev -> length cand = p -> length cf = p -> Small comp ev ->
    BInv comp view p (fst (sync_next it mx xtol ftol cand cf q))
         (ev ++ combine (map view cand) cf).
  Proof.
    intros I Hc Hf HS. destruct I as [lx lf real num best bnum mn (i0 & Hi0 & Hw)].
    set (f' := sel_fun cf (qf q)). set (x' := sel_x cand cf (qx q) (qf q)).
    assert (Hlf' : length f' = p) by (apply sel_fun_length; auto).
    assert (Hlx' : length x' = p) by (apply sel_x_length; auto).
    assert (Hnew : forall i, i < p -> In (view (nth i cand []), nth i cf n0) (combine (map view cand) cf)).
    { intros i Hi.
      replace (view (nth i cand []), nth i cf n0) with (nth i (combine (map view cand) cf) (view [], n0)).
      - apply nth_In. rewrite combine_length, map_length. lia.
      - rewrite combine_nth by (rewrite map_length; lia). rewrite map_nth. reflexivity. }
    assert (Hnum' : forall i, i < p -> isnum (nth i f' n0)).
    { intros i Hi. unfold f'. rewrite (sel_fun_nth cf (qf q) i p) by auto.
      destruct (nltb (nth i cf n0) (nth i (qf q) n0)) eqn:H; auto. eapply lt_num_l; exact H. }
    assert (HFn : Forall isnum f').
    { apply (Forall_nth' _ _ n0). intros i Hi. apply Hnum'; lia. }
    assert (Hle : forall i, i < p -> nleb (nth i f' n0) (nth i (qf q) n0) = true).
    { intros i Hi. unfold f'. rewrite (sel_fun_nth cf (qf q) i p) by auto.
      destruct (nltb (nth i cf n0) (nth i (qf q) n0)) eqn:H; [apply ol_lt_le, H|apply num, Hi]. }
    assert (Hlec : forall i, i < p -> isnum (nth i cf n0) -> nleb (nth i f' n0) (nth i cf n0) = true).
    { intros i Hi Hn. unfold f'. rewrite (sel_fun_nth cf (qf q) i p) by auto.
      destruct (nltb (nth i cf n0) (nth i (qf q) n0)) eqn:H; [exact Hn|].
      apply nlt_le; auto. }
    assert (Hreal' : forall i, i < p ->
        In (view (nth i x' []), nth i f' n0) (ev ++ combine (map view cand) cf)
        \/ (comp = true /\ nth i f' n0 = big)).
    { intros i Hi. unfold f', x'.
      rewrite (sel_fun_nth cf (qf q) i p), (sel_x_nth cand cf (qx q) (qf q) i p) by auto.
      destruct (nltb (nth i cf n0) (nth i (qf q) n0)).
      - left. apply in_or_app; right; auto.
      - destruct (real i Hi) as [H|H]; [left; apply in_or_app; auto|right; exact H]. }
    assert (Ha : argmin f' < p).
    { rewrite <- Hlf'. apply argmin_lt. intros Hn. rewrite Hn in Hlf'. cbn in Hlf'; lia. }
    assert (Hold : nleb (nth (argmin f') f' n0) (qbf q) = true).
    { eapply ol_le_trans; [apply (argmin_min f' HFn i0); lia|].
      eapply ol_le_trans; [apply Hle, Hi0|exact Hw]. }
    constructor; cbn; fold f' x'; auto.
    - destruct (Hreal' _ Ha) as [H|[Hcm H]]; [exact H|]. exfalso.
      rewrite H in Hold. pose proof (HS Hcm _ _ best bnum) as Hs.
      rewrite (ol_lt_nle _ _ Hs) in Hold. discriminate.
    - intros x y Hxy Hy. apply in_app_or in Hxy. destruct Hxy as [Hxy|Hxy].
      + eapply ol_le_trans; [exact Hold|]. eapply mn; eauto.
      + destruct (In_nth _ _ (view [], n0) Hxy) as (i & Hi & Heq).
        rewrite combine_length, map_length in Hi.
        rewrite combine_nth in Heq by (rewrite map_length; lia). injection Heq as _ <-.
        assert (Hip : i < p) by lia.
        eapply ol_le_trans; [apply (argmin_min f' HFn i); lia|]. apply Hlec; auto.
    - exists (argmin f'). split; [exact Ha|]. apply Hnum', Ha.
  Qed.

  Lemma BInv_async1 comp view p q ev xtol ftol i c cf :
    BInv comp view p q ev -> i < p -> Small comp (ev ++ [(view c, cf)]) ->
    BInv comp view p (fst (async1 xtol ftol i c cf q)) (ev ++ [(view c, cf)]).
  Proof.
    intros I Hi HS. destruct I as [lx lf real num best bnum mn (i0 & Hi0 & Hw)].
    assert (Hin : In (view c, cf) (ev ++ [(view c, cf)])) by (apply in_or_app; right; left; reflexivity).
    unfold async1, async_sel.
    destruct (nleb (cf) (nth i (qf q) n0)) eqn:Hc.
    - assert (Hcn : isnum cf) by (eapply le_num_l; exact Hc).
      assert (Hreal' : forall j, j < p ->
        In (view (nth j (upd i c (qx q)) []), nth j (upd i cf (qf q)) n0) (ev ++ [(view c, cf)])
        \/ (comp = true /\ nth j (upd i cf (qf q)) n0 = big)).
      { intros j Hj. destruct (Nat.eq_dec i j) as [->|Hij].
        - left. rewrite !upd_nth_same by (rewrite ?lx, ?lf; exact Hj). exact Hin.
        - rewrite !upd_nth_other by exact Hij.
          destruct (real j Hj); [left; apply in_or_app; auto|right; auto]. }
      assert (Hnum' : forall j, j < p -> isnum (nth j (upd i cf (qf q)) n0)).
      { intros j Hj. destruct (Nat.eq_dec i j) as [->|Hij].
        - rewrite upd_nth_same by (rewrite lf; exact Hj). exact Hcn.
        - rewrite upd_nth_other by exact Hij. auto. }
      destruct (nleb (cf) (qbf q)) eqn:Hb; constructor; cbn; rewrite ?upd_length; auto.
      + intros x y Hxy Hy. apply in_app_or in Hxy. destruct Hxy as [Hxy|[Hxy|[]]].
        * eapply ol_le_trans; [exact Hb|]. eapply mn; eauto.
        * injection Hxy as _ <-. exact Hcn.
      + exists i. split; [exact Hi|]. rewrite upd_nth_same by (rewrite lf; exact Hi). exact Hcn.
      + apply in_or_app; auto.
      + intros x y Hxy Hy. apply in_app_or in Hxy. destruct Hxy as [Hxy|[Hxy|[]]].
        * eapply mn; eauto.
        * injection Hxy as _ <-. apply ol_lt_le, nle_lt; auto.
      + exists i0. split; [exact Hi0|]. destruct (Nat.eq_dec i i0) as [->|Hij].
        * rewrite (ol_le_trans _ _ _ Hc Hw) in Hb. discriminate.
        * rewrite upd_nth_other by exact Hij. exact Hw.
    - constructor; cbn; auto.
      + intros j Hj. destruct (real j Hj); [left; apply in_or_app; auto|right; auto].
      + apply in_or_app; auto.
      + intros x y Hxy Hy. apply in_app_or in Hxy. destruct Hxy as [Hxy|[Hxy|[]]].
        * eapply mn; eauto.
        * injection Hxy as _ <-.
          assert (Hlt : nltb (nth i (qf q) n0) cf = true) by (apply nle_lt; auto).
          destruct (real i Hi) as [H|[Hcm H]].
          -- eapply ol_le_trans; [eapply mn; [exact H|apply num, Hi]|apply ol_lt_le, Hlt].
          -- exfalso. rewrite H in Hlt. pose proof (HS Hcm _ _ Hin Hy) as Hs.
             pose proof (lt_irrefl cf) as Hi'.
             rewrite (lt_trans _ _ _ Hs Hlt) in Hi'. discriminate.
      + exists i0; auto.
  Qed.

  Lemma Small_incl comp ev ev' : incl ev' ev -> Small comp ev -> Small comp ev'.
  Proof. intros Hi HS Hc x y Hxy. apply (HS Hc x y), Hi, Hxy. Qed.

  Lemma BInv_asyncs comp view p xtol ftol l : forall i q ev st,
    BInv comp view p q ev -> i + length l <= p ->
    Small comp (ev ++ map (fun c => (view (fst c), snd c)) l) ->
    BInv comp view p (fst (asyncs xtol ftol i l q st)) (ev ++ map (fun c => (view (fst c), snd c)) l).
  Proof.
    induction l as [|[c cf] l IH]; intros i q ev st I Hi HS; cbn [asyncs map].
    - rewrite app_nil_r. exact I.
    - cbn zeta. cbn [fst snd] in *.
      replace (ev ++ (view c, cf) :: map (fun c => (view (fst c), snd c)) l)
        with ((ev ++ [(view c, cf)]) ++ map (fun c => (view (fst c), snd c)) l)
        by (rewrite <- app_assoc; reflexivity).
      cbn [length] in Hi. apply IH; [|lia|].
      + apply BInv_async1; [exact I|lia|].
        eapply Small_incl; [|exact HS]. cbn [map fst snd]. intros z Hz.
        apply in_app_or in Hz. apply in_or_app. cbn in *. tauto.
      + cbn [map fst snd] in HS. rewrite <- app_assoc. exact HS.
  Qed.

  Lemma combine_view {A B C} (g : A -> C) (l1 : list A) (l2 : list B) :
    combine (map g l1) l2 = map (fun c => (g (fst c), snd c)) (combine l1 l2).
  Proof.
    revert l2; induction l1 as [|a l1 IH]; intros [|b l2]; cbn; auto. f_equal; auto.
  Qed.

  Lemma BInv_gen comp view p q ev sync it mx xtol ftol cand cf :
    BInv comp view p q ev -> length cand = p -> length cf = p ->
    Small comp (ev ++ combine (map view cand) cf) ->
    BInv comp view p (fst (gen_next sync it mx xtol ftol cand cf q))
         (ev ++ combine (map view cand) cf).
  Proof.
    intros I Hc Hf HS. destruct sync; cbn [gen_next].
    - apply BInv_sync; auto. eapply Small_incl; [|exact HS]. intros z Hz; apply in_or_app; auto.
    - cbn zeta. cbn [fst]. rewrite combine_view in HS |- *. apply BInv_asyncs; auto.
      rewrite combine_length. lia.
  Qed.

  Lemma BInv_same comp view p q ev ev' :
    (forall z, In z ev <-> In z ev') -> BInv comp view p q ev -> BInv comp view p q ev'.
  Proof.
    intros H [lx lf real num best bnum mn wit]. constructor; auto.
    - intros i Hi. destruct (real i Hi); [left; apply H; auto|right; auto].
    - apply H, best.
    - intros x y Hxy Hy. apply (mn x y); [apply H, Hxy|exact Hy].
  Qed.

  (** ** Restarts *)
  Lemma upd_many_nth_other {A} idx (d : A) : forall rows l j,
    ~ In j idx -> nth j (upd_many idx rows l) d = nth j l d.
  Proof.
    induction idx as [|i idx IH]; intros rows l j Hj; cbn; [reflexivity|].
    destruct rows as [|r rows]; [reflexivity|]. cbn in Hj. rewrite IH by tauto.
    apply upd_nth_other. intros ->; tauto.
  Qed.
  Lemma upd_many_repeat {A} idx (d a : A) n : forall l j,
    nth j (upd_many idx (repeat a n) l) d = a \/ nth j (upd_many idx (repeat a n) l) d = nth j l d.
  Proof.
    revert n; induction idx as [|i idx IH]; intros n l j; cbn; [auto|].
    destruct n as [|n]; cbn; [auto|]. destruct (IH n (upd i a l) j) as [H|H]; [auto|].
    rewrite H. destruct (Nat.eq_dec i j) as [->|Hij].
    - destruct (Nat.lt_ge_cases j (length l)) as [Hl|Hl].
      + left. apply upd_nth_same, Hl.
      + right. rewrite !nth_overflow; rewrite ?upd_length; auto.
    - right. apply upd_nth_other, Hij.
  Qed.
  (** both arrays change at the same places *)
  Lemma upd_many_both {A B} idx (d : A) (e b : B) n : forall (Y : list A) (l : list A) (g : list B) j,
    length Y = length idx -> length idx <= n -> length l = length g ->
    nth j (upd_many idx (repeat b n) g) e = b \/
    (nth j (upd_many idx (repeat b n) g) e = nth j g e /\ nth j (upd_many idx Y l) d = nth j l d).
  Proof.
    revert n; induction idx as [|i idx IH]; intros n Y l g j HY Hn Hlg; cbn; [auto|].
    destruct Y as [|y Y]; [discriminate|]. destruct n as [|n]; [cbn in Hn; lia|]. cbn [repeat].
    cbn in HY, Hn.
    destruct (IH n Y (upd i y l) (upd i b g) j) as [H|[H1 H2]]; try lia.
    - rewrite !upd_length. exact Hlg.
    - auto.
    - rewrite H1, H2. destruct (Nat.eq_dec i j) as [->|Hij].
      + destruct (Nat.lt_ge_cases j (length g)) as [Hl|Hl].
        * left. apply upd_nth_same, Hl.
        * right. rewrite !(nth_overflow (upd _ _ _)), !nth_overflow; rewrite ?upd_length; auto; lia.
      + right. rewrite !upd_nth_other by exact Hij. auto.
  Qed.

  Context {E : Env N}.

  (** [np.argsort] sorts numbers (order of equal ones unspecified). *)
  Definition ArgsortSorted : Prop :=
    forall f, Forall isnum f -> forall a b, a < b -> b < length f ->
      nleb (nth (nth a (e_argsort f) 0) f n0) (nth (nth b (e_argsort f) 0) f n0) = true.
  Definition ArgsortOK : Prop := ArgsortPerm /\ ArgsortSorted.

  Lemma worst_spec f n : ArgsortPerm -> n < length f -> f <> [] ->
    ~ In (nth 0 (e_argsort f) 0) (worst f n) /\ nth 0 (e_argsort f) 0 < length f.
  Proof.
    intros HA Hn Hne. unfold worst.
    destruct (seq_perm_facts _ _ (HA f)) as [Hnd Hin].
    assert (Hl : length (e_argsort f) = length f).
    { rewrite (Permutation_length (HA f)), seq_length. reflexivity. }
    destruct (e_argsort f) as [|a l] eqn:Heq; [destruct f; cbn in Hl; congruence|].
    cbn [nth]. split; [|apply Hin; left; reflexivity].
    cbn [rev]. rewrite firstn_app. cbn in Hl. rewrite rev_length.
    replace (n - length l) with 0 by lia. rewrite firstn_O, app_nil_r. intros Hc.
    assert (Hc' : In a (rev l)) by (rewrite <- (firstn_skipn n); apply in_or_app; auto).
    apply in_rev in Hc'. inversion Hnd; tauto.
  Qed.

  Lemma BInv_restart view p q q1 ev Y n :
    ArgsortOK -> n <= p - 1 -> isnum big ->
    BInv true view p q ev ->
    length Y = length (worst (qf q) n) ->
    qx q1 = upd_many (worst (qf q) n) Y (qx q) ->
    qf q1 = upd_many (worst (qf q) n) (repeat big n) (qf q) ->
    qb q1 = qb q -> qbf q1 = qbf q ->
    BInv true view p q1 ev.
  Proof.
    intros [HAp HAs] Hn Hbn I HY Hx Hf Hb Hbf.
    destruct I as [lx lf real num best bnum mn (i0 & Hi0 & Hw)].
    assert (Hw' : length (worst (qf q) n) <= n) by apply worst_length.
    constructor; rewrite ?Hx, ?Hf, ?Hb, ?Hbf, ?upd_many_length; auto.
    - intros i Hi.
      destruct (@upd_many_both vec T (worst (qf q) n) [] n0 big n Y (qx q) (qf q) i HY Hw') as [H|[H1 H2]].
      + rewrite lf. exact lx.
      + right. auto.
      + rewrite H1. rewrite H2. auto.
    - intros i Hi. destruct (upd_many_repeat (worst (qf q) n) n0 big n (qf q) i) as [H|H];
        rewrite H; auto.
    - assert (Hne : qf q <> []) by (intros Hnn; rewrite Hnn in lf; cbn in lf; lia).
      destruct (worst_spec (qf q) n HAp) as [H1 H2]; [lia|exact Hne|].
      exists (nth 0 (e_argsort (qf q)) 0). split; [lia|].
      rewrite upd_many_nth_other by exact H1.
      assert (HFn : Forall isnum (qf q)).
      { apply (Forall_nth' _ _ n0). intros i Hi. apply num; lia. }
      destruct (seq_perm_facts _ _ (HAp (qf q))) as [Hnd Hin].
      assert (Hl : length (e_argsort (qf q)) = length (qf q))
        by (rewrite (Permutation_length (HAp (qf q))), seq_length; reflexivity).
      assert (Hi0' : In i0 (e_argsort (qf q))) by (apply Hin; lia).
      destruct (In_nth _ _ 0 Hi0') as (k & Hk & Hkk).
      destruct k as [|k].
      + rewrite Hkk. exact Hw.
      + eapply ol_le_trans; [|exact Hw]. rewrite <- Hkk. apply HAs; auto; lia.
  Qed.
End BestInv.
