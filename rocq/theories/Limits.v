(** C63, C64.  What maxiter, xtol and ftol do to a run: two calls that differ in these three
    arguments only are compared, from the same state and with the same user code. *)
From Verif Require Import Base Num Env Common DE CPSO NA Mat CMAES VDCMA Hoare Rel Laws Disc.

(** A call with other limits. *)
Definition with_limits {N : Num} (mi : Z) (xt ft : T) (a : Args) : Args :=
  mkArgs (a_callable a) (a_bounds a) (a_x0 a) (a_x0_array a) mi (a_popsize a) (a_seed a) xt ft
         (a_constraints a) (a_workers a) (a_backend a) (a_return_all a) (a_verbosity a)
         (a_callback a).

(** The record of one run is the beginning of the record of another. *)
Definition grows {N : Num} (r r' : option (@Rec N)) : Prop :=
  match r, r' with
  | None, None => True
  | Some (xs, fs), Some (xs', fs') => exists u v, xs' = xs ++ u /\ fs' = fs ++ v
  | _, _ => False
  end.

Lemma grows_refl {N : Num} (r : option (@Rec N)) : grows r r.
Proof. destruct r as [[xs fs]|]; cbn; [|exact I]. exists [], []. rewrite !app_nil_r. auto. Qed.
Lemma grows_trans {N : Num} (a b c : option (@Rec N)) : grows a b -> grows b c -> grows a c.
Proof.
  destruct a as [[xa fa]|], b as [[xb fb]|], c as [[xc fc]|]; cbn; try tauto.
  intros (u & v & -> & ->) (u' & v' & -> & ->). exists (u ++ u'), (v ++ v').
  rewrite !app_assoc. auto.
Qed.

Section Track.
  Context {N : Num} {E : Env N}.

  (** Every returned value satisfies [Q]. *)
  Definition post {A} (m : M A) (Q : A -> Prop) : Prop := forall s a, fst (m s) = inl a -> Q a.

  Lemma post_any {A} (m : M A) : post m (fun _ => True).
  Proof. intros s a _. exact I. Qed.
  Lemma post_ret {A} (a : A) (Q : A -> Prop) : Q a -> post (ret a) Q.
  Proof. intros H s b [= <-]. exact H. Qed.
  Lemma post_bind {A B} (m : M A) (k : A -> M B) (Q : A -> Prop) (Q' : B -> Prop) :
    post m Q -> (forall a, Q a -> post (k a) Q') -> post (bind m k) Q'.
  Proof.
    intros H Hk s b. unfold bind. destruct (m s) as [[a|e] t] eqn:Em; [|discriminate].
    intro Hb. eapply Hk; [|exact Hb]. apply (H s). rewrite Em. reflexivity.
  Qed.
  Lemma post_foldM {A B} (f : A -> B -> M A) (Q : A -> Prop) l : forall acc,
    Q acc -> (forall a b, Q a -> post (f a b) Q) -> post (foldM f acc l) Q.
  Proof.
    induction l as [|x l IH]; intros acc H0 H; cbn [foldM]; [apply post_ret, H0|].
    eapply post_bind; [apply H, H0|]. intros a Ha. apply IH; auto.
  Qed.
  Lemma post_rec_write nout mx it pop pfit best r : (nout = None -> r = None) -> (r = None -> nout = None) ->
    post (rec_write nout mx it pop pfit best r) (grows r).
  Proof.
    intros H1 H2. unfold rec_write. destruct nout as [n|].
    2:{ rewrite (H1 eq_refl). apply post_ret. exact I. }
    destruct r as [[xs fs]|]; [|discriminate (H2 eq_refl)].
    apply post_bind with (Q := fun r' => grows (Some (xs, fs)) (Some r')).
    2:{ intros r' Hr. apply post_ret, Hr. }
    unfold rec_put. destruct (mx <? it)%Z; [intros s a; discriminate|].
    destruct (0 <? n)%Z.
    - eapply post_bind; [apply post_any|]. intros rows _.
      eapply post_bind; [apply post_any|]. intros f _. apply post_ret. cbn.
      eexists _, _. split; reflexivity.
    - apply post_ret. cbn. eexists _, _. split; reflexivity.
  Qed.

  (** The same computation. *)
  Notation same := (@rel N E E eq).
  Lemma same_refl {A} (m : M A) : same m m eq.
  Proof. intros s ? <-. split; [reflexivity|]. destruct (fst (m s)); reflexivity. Qed.
  Lemma same_eq {A} (m m' : M A) : m = m' -> same m m' eq.
  Proof. intros <-. apply same_refl. Qed.

  (** The condition under which [SR] relates what the two runs decided. *)
  Variable SR : option Z -> option Z -> Prop.

  (** Two results that may differ in the status (and the message) only. *)
  Definition alike (a b : OptRes) : Prop :=
    r_x a = r_x b /\ r_fun a = r_fun b /\ r_nfev a = r_nfev b /\ r_nit a = r_nit b /\
    r_all a = r_all b /\ (r_status a = r_status b -> a = b).

  (** The two runs go the same way until one of them stops. *)
  Definition track (m1 m2 : M OptRes) : Prop := forall s,
    (snd (m1 s) = snd (m2 s) /\
     match fst (m1 s), fst (m2 s) with
     | inl a, inl b => alike a b /\ SR (Some (r_status a)) (Some (r_status b))
     | inr e, inr e' => e = e'
     | _, _ => False
     end) \/
    (exists a rest, fst (m1 s) = inl a /\ SR (Some (r_status a)) None /\
       tr (snd (m2 s)) = tr (snd (m1 s)) ++ rest /\
       (forall b, fst (m2 s) = inl b -> (r_nit a < r_nit b)%Z /\ grows (r_all a) (r_all b))) \/
    (exists b rest, fst (m2 s) = inl b /\ SR None (Some (r_status b)) /\
       tr (snd (m1 s)) = tr (snd (m2 s)) ++ rest /\
       (forall a, fst (m1 s) = inl a -> (r_nit b < r_nit a)%Z /\ grows (r_all b) (r_all a))).

  Lemma track_bind {A B} (m1 : M A) (m2 : M B) k1 k2 Q :
    same m1 m2 Q -> (forall a b, Q a b -> track (k1 a) (k2 b)) -> track (bind m1 k1) (bind m2 k2).
  Proof.
    intros H Hk s. unfold bind. specialize (H s s eq_refl).
    destruct (m1 s) as [[a|e] t1], (m2 s) as [[b|e'] t2]; cbn in H; destruct H as [<- H];
      try contradiction.
    - apply Hk; auto.
    - subst. left. split; cbn; auto.
  Qed.

  Lemma drive_nit {S} (d : Drv S) cb : forall n it s st r,
    fst (drive d cb n it s st) = inl r -> (it < r_nit r)%Z.
  Proof.
    induction n as [|n IH]; intros it s st r; cbn [drive]; [discriminate|].
    unfold bind. destruct (d_step d (it + 1) s st) as [[[s' c]|e] st1]; [|discriminate].
    destruct (when cb _ st1) as [[u|e] st2]; [|discriminate].
    destruct c as [c|].
    - unfold result, bind. destruct (orelse _ _ st2) as [[m|e] st3]; [|discriminate].
      cbn. intros [= <-]. cbn. lia.
    - destruct (d_post d (it + 1) s' st2) as [[s2|e] st3]; [|discriminate].
      intro H. apply IH in H. lia.
  Qed.

  (** Steps that only add to the record. *)
  Definition adds {S} (d : Drv S) (I : S -> Prop) : Prop :=
    (forall it s, I s -> post (d_step d it s)
                              (fun p => I (fst p) /\ grows (d_rec d s) (d_rec d (fst p)))) /\
    (forall it s, I s -> post (d_post d it s)
                              (fun s' => I s' /\ grows (d_rec d s) (d_rec d s'))).

  Lemma drive_rec {S} (d : Drv S) I cb : adds d I -> forall n it s st r, I s ->
    fst (drive d cb n it s st) = inl r -> grows (d_rec d s) (r_all r).
  Proof.
    intros [H1 H2]. induction n as [|n IH]; intros it s st r HI; cbn [drive]; [discriminate|].
    unfold bind. pose proof (H1 (it + 1)%Z s HI st) as K1.
    destruct (d_step d (it + 1) s st) as [[[s' c]|e] st1]; [|discriminate].
    destruct (K1 _ eq_refl) as [HI' G1]. cbn [fst] in HI', G1.
    destruct (when cb _ st1) as [[u|e] st2]; [|discriminate].
    destruct c as [c|].
    - unfold result, bind. destruct (orelse _ _ st2) as [[m|e] st3]; [|discriminate].
      cbn. intros [= <-]. exact G1.
    - pose proof (H2 (it + 1)%Z s' HI' st2) as K2.
      destruct (d_post d (it + 1) s' st2) as [[s2|e] st3]; [|discriminate].
      destruct (K2 _ eq_refl) as [HI2 G2].
      intro H. apply IH in H; [|exact HI2]. eapply grows_trans; [exact G1|].
      eapply grows_trans; [exact G2 | exact H].
  Qed.

  Lemma result_eq {S} (d : Drv S) it s c st : message c <> None ->
    exists r, result d it s c st = (inl r, st) /\ r_nit r = it /\ r_status r = c /\
      r_x r = d_x d s /\ r_fun r = d_fun d s /\ r_nfev r = d_nfev d it s /\ r_all r = d_rec d s /\
      r_success r = (0 <=? c)%Z /\ message c = Some (r_message r).
  Proof.
    intro Hx. unfold result, bind. destruct (message c) as [m|]; [|congruence].
    cbn. eexists. split; [reflexivity|]. cbn. repeat split.
  Qed.

  Lemma res_eq (a b : OptRes) :
    r_x a = r_x b -> r_fun a = r_fun b -> r_nfev a = r_nfev b -> r_nit a = r_nit b ->
    r_all a = r_all b -> r_status a = r_status b -> r_success a = r_success b ->
    r_message a = r_message b -> a = b.
  Proof. destruct a, b; cbn; intros; subst; reflexivity. Qed.

  (** What one iteration has to satisfy; [mi], [mi'] are the two budgets. *)
  Definition stepwise {S} (d1 d2 : Drv S) (mi mi' : Z) (K : Z -> S -> S -> Prop) : Prop :=
    (forall it a b, K it a b ->
       same (d_step d1 it a) (d_step d2 it b)
            (fun p q => same_view d1 d2 (fst p) (fst q) /\ SR (snd p) (snd q) /\
                        (forall c, snd p = Some c -> message c <> None) /\
                        (forall c, snd q = Some c -> message c <> None) /\
                        (snd p = None -> (it < mi)%Z) /\ (snd q = None -> (it < mi')%Z) /\
                        ((it < mi)%Z -> (it < mi')%Z -> K (it + 1)%Z (fst p) (fst q)))).

  Lemma track_drive {S} (d1 d2 : Drv S) mi mi' (K : Z -> S -> S -> Prop) I1 I2 cb :
    stepwise d1 d2 mi mi' K ->
    (forall it a b, K (it + 1)%Z a b -> same (d_post d1 it a) (d_post d2 it b) (K (it + 1)%Z)) ->
    adds d1 I1 -> adds d2 I2 ->
    (forall it a, disc (d_step d1 it a)) -> (forall it a, disc (d_step d2 it a)) ->
    (forall it a, disc (d_post d1 it a)) -> (forall it a, disc (d_post d2 it a)) ->
    forall n n' it a b, K (it + 1)%Z a b -> I1 a -> I2 b ->
      0 < n -> 0 < n' -> (mi <= it + Z.of_nat n)%Z -> (mi' <= it + Z.of_nat n')%Z ->
      track (drive d1 cb n it a) (drive d2 cb n' it b).
  Proof.
    intros HS HP A1 A2 D1 D2 D3 D4. induction n as [|n IH]; intros n' it a b HK J1 J2 Hn Hn' Hm Hm'; [lia|].
    destruct n' as [|n']; [lia|]. cbn [drive].
    eapply track_bind.
    { (* carry the invariants of the two records *)
      intros s1 s2 <-. pose proof (HS _ _ _ HK s1 s1 eq_refl) as H.
      pose proof (proj1 A1 (it + 1)%Z a J1 s1) as P1. pose proof (proj1 A2 (it + 1)%Z b J2 s1) as P2.
      destruct H as [H H']. split; [exact H|].
      instantiate (1 := fun p q => (same_view d1 d2 (fst p) (fst q) /\ SR (snd p) (snd q) /\
                        (forall c, snd p = Some c -> message c <> None) /\
                        (forall c, snd q = Some c -> message c <> None) /\
                        (snd p = None -> (it + 1 < mi)%Z) /\ (snd q = None -> (it + 1 < mi')%Z) /\
                        ((it + 1 < mi)%Z -> (it + 1 < mi')%Z -> K (it + 1 + 1)%Z (fst p) (fst q))) /\
                        I1 (fst p) /\ I2 (fst q)).
      destruct (fst (d_step d1 (it + 1) a s1)) as [p|e], (fst (d_step d2 (it + 1) b s1)) as [q|e'];
        try exact H'. split; [exact H'|]. split; [apply (P1 p eq_refl) | apply (P2 q eq_refl)]. }
    intros [a' c] [b' c'] ((HV & HR & Hc & Hc' & N1 & N2 & HK') & J1' & J2'). cbn [fst snd] in *.
    destruct HV as (V1 & V2 & V3 & V4 & V5).
    apply track_bind with (Q := eq).
    { apply same_eq. unfold cb_state. rewrite V1, V2, V3, V4, V5. reflexivity. }
    intros _ _ _. destruct c as [c|], c' as [c'|]; intro s.
    - destruct (result_eq d1 (it + 1) a' c s (Hc c eq_refl)) as (r & E1 & R1 & R2 & R3 & R4 & R5 & R6 & R7 & R8).
      destruct (result_eq d2 (it + 1) b' c' s (Hc' c' eq_refl)) as (r' & E2 & R1' & R2' & R3' & R4' & R5' & R6' & R7' & R8').
      left. rewrite E1, E2. cbn [fst snd]. split; [reflexivity|].
      unfold alike. rewrite R2, R2'. split; [|exact HR].
      do 5 (split; [congruence|]). intro Hcc. apply res_eq; congruence.
    - destruct (result_eq d1 (it + 1) a' c s (Hc c eq_refl)) as (r & E1 & R1 & R2 & R3 & R4 & R5 & R6 & R7 & R8).
      right. left. rewrite E1. cbn [fst snd]. exists r.
      assert (HD : disc (s <- d_post d2 (it + 1) b' ;; drive d2 cb n' (it + 1) s)).
      { apply disc_bind; [apply D4|]. intro z. apply disc_drive; auto. }
      destruct (HD s) as (evs & He & _ & _). exists evs. split; [reflexivity|].
      rewrite R2. split; [exact HR|]. split; [exact He|].
      intros y. unfold bind. pose proof (proj2 A2 (it + 1)%Z b' J2' s) as P2.
      destruct (d_post d2 (it + 1) b' s) as [[s3|e] st3]; [|discriminate].
      destruct (P2 _ eq_refl) as [I3 G3].
      intro Hy. pose proof (drive_rec d2 I2 cb A2 _ _ _ _ _ I3 Hy) as G4. apply drive_nit in Hy.
      split; [lia|]. rewrite R6, V5. eapply grows_trans; eassumption.
    - destruct (result_eq d2 (it + 1) b' c' s (Hc' c' eq_refl)) as (r & E1 & R1 & R2 & R3 & R4 & R5 & R6 & R7 & R8).
      right. right. rewrite E1. cbn [fst snd]. exists r.
      assert (HD : disc (s <- d_post d1 (it + 1) a' ;; drive d1 cb n (it + 1) s)).
      { apply disc_bind; [apply D3|]. intro z. apply disc_drive; auto. }
      destruct (HD s) as (evs & He & _ & _). exists evs. split; [reflexivity|].
      rewrite R2. split; [exact HR|]. split; [exact He|].
      intros y. unfold bind. pose proof (proj2 A1 (it + 1)%Z a' J1' s) as P1.
      destruct (d_post d1 (it + 1) a' s) as [[s3|e] st3]; [|discriminate].
      destruct (P1 _ eq_refl) as [I3 G3].
      intro Hy. pose proof (drive_rec d1 I1 cb A1 _ _ _ _ _ I3 Hy) as G4. apply drive_nit in Hy.
      split; [lia|]. rewrite R6, <- V5. eapply grows_trans; eassumption.
    - revert s. change (track (s <- d_post d1 (it + 1) a' ;; drive d1 cb n (it + 1) s)
                              (s <- d_post d2 (it + 1) b' ;; drive d2 cb n' (it + 1) s)).
      specialize (N1 eq_refl). specialize (N2 eq_refl). specialize (HK' N1 N2).
      eapply track_bind.
      { intros s1 s2 <-. pose proof (HP _ _ _ HK' s1 s1 eq_refl) as [H H'].
        pose proof (proj2 A1 (it + 1)%Z a' J1' s1) as P1. pose proof (proj2 A2 (it + 1)%Z b' J2' s1) as P2.
        split; [exact H|].
        instantiate (1 := fun p q => K (it + 1 + 1)%Z p q /\ I1 p /\ I2 q).
        destruct (fst (d_post d1 (it + 1) a' s1)) as [p|e], (fst (d_post d2 (it + 1) b' s1)) as [q|e'];
          try exact H'. split; [exact H'|]. split; [apply (P1 p eq_refl) | apply (P2 q eq_refl)]. }
      intros u v (Huv & Iu & Iv). apply IH; auto; lia.
  Qed.
End Track.

Section Pop.
  Context {N : Num} {E : Env N}.
  Variable SR : option Z -> option Z -> Prop.
  Variables mi mi' : Z.
  Variables xt xt' ft ft' : T.

  Notation same := (@rel N E E eq).
  Notation track := (track SR).

  (** The end of an asynchronous generation: de/_de.py:390-392 *)
  Definition fin (m it : Z) (c : option Z) : option Z :=
    match c with None => if (m <=? it)%Z then Some (-1)%Z else None | Some c => Some c end.
  Definition SA (c c' : option Z) : Prop := forall it, SR (fin mi it c) (fin mi' it c').

  Hypothesis HSync : forall it xb xi fi,
    SR (sync_status it mi xt ft xb xi fi) (sync_status it mi' xt' ft' xb xi fi).
  Hypothesis HAsync : forall c cf xb xbf x xf i,
    SA (sa_status (async_sel c cf xb xbf x xf xt ft i))
       (sa_status (async_sel c cf xb xbf x xf xt' ft' i)).
  Hypothesis HNone : SA None None.

  Lemma sync_status_msg it m x f xb xi fi c :
    sync_status it m x f xb xi fi = Some c -> message c <> None.
  Proof.
    unfold sync_status. repeat match goal with |- (if ?b then _ else _) = _ -> _ => destruct b end;
      intros [= <-]; discriminate.
  Qed.
  Lemma sync_status_none it m x f xb xi fi :
    sync_status it m x f xb xi fi = None -> (it < m)%Z.
  Proof.
    unfold sync_status. destruct (_ && _); [discriminate|]. destruct (nleb fi f); [discriminate|].
    destruct (m <=? it)%Z eqn:H; [discriminate|]. intros _. apply Z.leb_gt, H.
  Qed.
  Definition okst (c : option Z) : Prop := c = None \/ c = Some 0%Z \/ c = Some 1%Z.
  Lemma async_status c cf xb xbf x xf t u i : okst (sa_status (async_sel c cf xb xbf x xf t u i)).
  Proof.
    unfold async_sel, okst. destruct (nleb cf (nth i xf n0)); cbn; auto.
    destruct (nleb cf xbf); cbn; auto. destruct (_ && _); auto. destruct (nleb cf u); auto.
  Qed.
  Lemma fin_msg m it c z : okst c -> fin m it c = Some z -> message z <> None.
  Proof.
    unfold fin. intros [-> | [-> | ->]]; [destruct (m <=? it)%Z|..]; intros [= <-]; discriminate.
  Qed.
  Lemma fin_none m it c : fin m it c = None -> (it < m)%Z.
  Proof.
    unfold fin. destruct c; [discriminate|]. destruct (m <=? it)%Z eqn:H; [discriminate|].
    intros _. apply Z.leb_gt, H.
  Qed.
  Lemma async_same c cf xb xbf x xf t u t' u' i :
    let p := async_sel c cf xb xbf x xf t u i in
    let q := async_sel c cf xb xbf x xf t' u' i in
    sa_x q = sa_x p /\ sa_xfun q = sa_xfun p /\ sa_best q = sa_best p /\
    sa_bestfun q = sa_bestfun p /\ sa_candfun q = sa_candfun p.
  Proof.
    unfold async_sel. destruct (nleb cf (nth i xf n0)); cbn; auto.
    destruct (nleb cf xbf); cbn; auto 6.
  Qed.

  (** Enough rows for both records. *)
  Definition fits (nout : option Z) (it : Z) : Prop := nout = None \/ ((it <= mi)%Z /\ (it <= mi')%Z).

  Lemma rec_write_limit nout it pop pf best r : fits nout it ->
    rec_write nout mi it pop pf best r = rec_write nout mi' it pop pf best r.
  Proof.
    intros [-> | [H1 H2]]; [reflexivity|]. unfold rec_write, rec_put.
    destruct (Z.ltb_spec mi it); [lia|]. destruct (Z.ltb_spec mi' it); [lia|]. reflexivity.
  Qed.

  Lemma rec_alloc_limit ra v p : ra = false \/ ((0 <= mi)%Z /\ (0 <= mi')%Z) ->
    rec_alloc ra v p mi = rec_alloc ra v p mi'.
  Proof.
    intros [-> | [H1 H2]]; [reflexivity|]. unfold rec_alloc.
    destruct (Z.ltb_spec mi 0); [lia|]. destruct (Z.ltb_spec mi' 0); [lia|]. reflexivity.
  Qed.

  Lemma alloc_none ra v p m : post (rec_alloc ra v p m) (fun n => ra = false -> n = None).
  Proof.
    unfold rec_alloc. destruct ra; [|apply post_ret; auto].
    intros s a _; discriminate.
  Qed.

  (** Returned values of a computation, with what is known about them. *)
  Lemma same_post {A} (m : M A) Q : post m Q -> same m m (fun a b => a = b /\ Q a).
  Proof.
    intros H s ? <-. split; [reflexivity|]. pose proof (H s) as K.
    destruct (fst (m s)) as [a|e]; auto.
  Qed.

  Lemma fin_eq m it c :
    match c with None => if (m <=? it)%Z then Some (-1)%Z else None | Some z => Some z end = fin m it c.
  Proof. reflexivity. Qed.

  (** ** Differential evolution *)
  Definition de_l (P : DEParams) (m : Z) (x f : T) : DEParams :=
    mkDEParams (de_F P) (de_CR P) (de_strat P) (de_con P) (de_p P) (de_d P) (de_lower P)
               (de_upper P) m x f (de_mode P) (de_nout P) (de_alias P) (de_list P).

  Lemma de_sync_same P it r1 s :
    same (de_sync (de_l P mi xt ft) it r1 s) (de_sync (de_l P mi' xt' ft') it r1 s)
         (fun p q => fst p = fst q /\ des_rec (fst p) = des_rec s /\ SR (snd p) (snd q) /\
                     (forall c, snd p = Some c -> message c <> None) /\
                     (forall c, snd q = Some c -> message c <> None) /\
                     (snd p = None -> (it < mi)%Z) /\ (snd q = None -> (it < mi')%Z)).
  Proof.
    unfold de_sync. eapply rel_bind.
    { apply same_eq with (m' := de_cands (de_l P mi xt ft) r1 (des_X s) (des_gbest s)). reflexivity. }
    intros U ? <-. unfold selection_sync. cbn [de_l de_mode de_maxiter de_xtol de_ftol].
    eapply rel_bind with (Q := fun p q => exists c cf, p = sync_sel it c cf (des_gbest s) (des_X s) (des_pbestfit s) mi xt ft /\
                                              q = sync_sel it c cf (des_gbest s) (des_X s) (des_pbestfit s) mi' xt' ft').
    { eapply rel_bind; [apply same_refl|]. intros [c cf] ? <-.
      eapply rel_bind; [apply same_refl|]. intros ? ? _. apply rel_ret. eauto. }
    intros p q (c & cf & -> & ->). unfold set_alias. cbn [sync_sel ss_x de_l de_alias].
    eapply rel_bind; [apply same_refl|]. intros ? ? _. apply rel_ret. cbn.
    repeat split; auto; try (intro; apply sync_status_msg); apply sync_status_none.
  Qed.

  Lemma de_async_one_same P r1 s c c' i : 
    same (de_async_one (de_l P mi xt ft) r1 (s, c) i) (de_async_one (de_l P mi' xt' ft') r1 (s, c') i)
         (fun p q => fst p = fst q /\ des_rec (fst p) = des_rec s /\ SA (snd p) (snd q) /\
                     okst (snd p) /\ okst (snd q)).
  Proof.
    unfold de_async_one. cbn [fst]. eapply rel_bind.
    { apply same_eq with (m' := de_cand1 (de_l P mi xt ft) (nth i r1 []) i (des_X s) (des_gbest s)).
      reflexivity. }
    intros u ? <-. unfold selection_async. cbn [de_l de_xtol de_ftol].
    eapply rel_bind with (Q := fun p q => exists cf, p = async_sel u cf (des_gbest s) (des_gfit s) (des_X s) (des_pbestfit s) xt ft i /\
                                           q = async_sel u cf (des_gbest s) (des_gfit s) (des_X s) (des_pbestfit s) xt' ft' i).
    { eapply rel_bind; [apply same_refl|]. intros cf ? <-. apply rel_ret. eauto. }
    intros p q (cf & -> & ->).
    destruct (async_same u cf (des_gbest s) (des_gfit s) (des_X s) (des_pbestfit s) xt ft xt' ft' i)
      as (-> & -> & -> & -> & ->).
    unfold set_alias. cbn [de_l de_alias]. eapply rel_bind; [apply same_refl|]. intros ? ? _.
    apply rel_ret. cbn. repeat split; auto; apply async_status.
  Qed.

  Lemma de_async_same P it r1 s :
    same (de_async (de_l P mi xt ft) it r1 s) (de_async (de_l P mi' xt' ft') it r1 s)
         (fun p q => fst p = fst q /\ des_rec (fst p) = des_rec s /\ SR (snd p) (snd q) /\
                     (forall c, snd p = Some c -> message c <> None) /\
                     (forall c, snd q = Some c -> message c <> None) /\
                     (snd p = None -> (it < mi)%Z) /\ (snd q = None -> (it < mi')%Z)).
  Proof.
    unfold de_async. cbn [de_l de_p de_maxiter].
    eapply rel_bind with (Q := fun p q => fst p = fst q /\ des_rec (fst p) = des_rec s /\
                                SA (snd p) (snd q) /\ okst (snd p) /\ okst (snd q)).
    { assert (G : forall l p q, (fst p = fst q /\ des_rec (fst p) = des_rec s /\ SA (snd p) (snd q) /\
                                 okst (snd p) /\ okst (snd q)) ->
                same (foldM (de_async_one (de_l P mi xt ft) r1) p l)
                     (foldM (de_async_one (de_l P mi' xt' ft') r1) q l)
                     (fun p q => fst p = fst q /\ des_rec (fst p) = des_rec s /\
                                SA (snd p) (snd q) /\ okst (snd p) /\ okst (snd q))).
      { induction l as [|x l IH]; intros p q H; cbn [foldM]; [apply rel_ret, H|].
        destruct p as [sp cp], q as [sq cq]. cbn [fst snd] in H. destruct H as (<- & Hr & _).
        eapply rel_bind; [apply de_async_one_same|]. intros p q (H1 & H2 & H3). apply IH.
        rewrite H2. auto. }
      apply G. cbn. repeat split; auto; left; reflexivity. }
    intros [s1 c] [s2 c'] (H1 & H2 & H3 & H4 & H5). cbn [fst snd] in *. subst s2. apply rel_ret.
    rewrite !fin_eq. cbn [fst snd]. split; [reflexivity|]. split; [exact H2|]. split; [apply H3|].
    split; [intro z; apply fin_msg, H4|]. split; [intro z; apply fin_msg, H5|].
    split; apply fin_none.
  Qed.

  Definition Kde (P : DEParams) (it : Z) (a b : DES) : Prop := a = b /\ fits (de_nout P) it.

  Lemma de_stepwise P sync :
    stepwise SR (de_drv (de_l P mi xt ft) sync) (de_drv (de_l P mi' xt' ft') sync) mi mi' (Kde P).
  Proof.
    intros it a ? [<- HF]. cbn [de_drv d_step]. unfold de_step. cbn [de_l de_p de_d de_list].
    eapply rel_bind; [apply same_refl|]. intros r1 ? <-.
    eapply rel_bind; [apply same_refl|]. intros ? ? _.
    eapply rel_bind with (Q := fun p q => fst p = fst q /\ des_rec (fst p) = des_rec a /\ SR (snd p) (snd q) /\
                     (forall c, snd p = Some c -> message c <> None) /\
                     (forall c, snd q = Some c -> message c <> None) /\
                     (snd p = None -> (it < mi)%Z) /\ (snd q = None -> (it < mi')%Z)).
    { destruct sync; [apply de_sync_same | apply de_async_same]. }
    intros [s c] [s' c'] (H1 & H2 & H3 & H4 & H5 & H6 & H7). cbn [fst snd] in *. subst s'.
    cbn [de_l de_nout de_maxiter]. rewrite rec_write_limit by exact HF.
    eapply rel_bind; [apply same_refl|]. intros r ? <-. apply rel_ret. cbn.
    split; [repeat split|]. do 5 (split; [assumption|]). intros L1 L2. split; [reflexivity|]. right. lia.
  Qed.

  Definition Ide (P : DEParams) (s : DES) : Prop := de_nout P = None <-> des_rec s = None.

  Lemma post_de_gen P (sync : bool) it r1 s :
    post (if sync then de_sync P it r1 s else de_async P it r1 s)
         (fun p => des_rec (fst p) = des_rec s).
  Proof.
    destruct sync.
    - unfold de_sync. eapply post_bind; [apply post_any|]. intros U _.
      eapply post_bind; [apply post_any|]. intros sel _.
      eapply post_bind; [apply post_any|]. intros _ _. apply post_ret. reflexivity.
    - unfold de_async. eapply post_bind.
      { apply post_foldM with (Q := fun p => des_rec (fst p) = des_rec s); [reflexivity|].
        intros p i Hp. unfold de_async_one. eapply post_bind; [apply post_any|]. intros u _.
        eapply post_bind; [apply post_any|]. intros sel _.
        eapply post_bind; [apply post_any|]. intros _ _. apply post_ret. exact Hp. }
      intros [s1 c] H1. apply post_ret. exact H1.
  Qed.

  Lemma grows_none (n : option Z) (r r' : option Rec) :
    (n = None <-> r = None) -> grows r r' -> (n = None <-> r' = None).
  Proof.
    intros H G. rewrite H. destruct r as [[? ?]|], r' as [[? ?]|]; cbn in G; try contradiction;
      split; congruence.
  Qed.

  Lemma de_adds P sync : adds (de_drv P sync) (Ide P).
  Proof.
    split; intros it s HI.
    - cbn [de_drv d_step d_rec]. unfold de_step. eapply post_bind; [apply post_any|]. intros r1 _.
      eapply post_bind; [apply post_any|]. intros _ _.
      eapply post_bind; [apply (post_de_gen P sync it r1 s)|]. intros [s' c] H. cbn [fst] in H.
      eapply post_bind; [apply post_rec_write; rewrite H; apply HI|]. intros r Hr. apply post_ret.
      rewrite H in Hr. cbn [fst des_rec]. split; [|exact Hr]. unfold Ide in *. cbn.
      eapply grows_none; eassumption.
    - cbn. apply post_ret. split; [exact HI | apply grows_refl].
  Qed.

  (** When the two calls may differ in maxiter. *)
  Definition RoomFor (a : Args) : Prop := a_return_all a = false \/ ((2 <= mi)%Z /\ (2 <= mi')%Z).

  Notation lim1 := (with_limits mi xt ft).
  Notation lim2 := (with_limits mi' xt' ft').

  (** Both calls start in the same way: what the first callback sees and the first state. *)
  Lemma start_record (nout : option Z) :
    nout = None <-> match nout with Some _ => Some (@nil matrix, @nil vec) | None => None end = None.
  Proof. destruct nout; split; congruence. Qed.

  Lemma track_de_minimize A : RoomFor (dea A) ->
    track (de_minimize (mkDEArgs (lim1 (dea A)) (dea_mutation A) (dea_recombination A)
                                 (dea_strategy A) (dea_updating A)))
          (de_minimize (mkDEArgs (lim2 (dea A)) (dea_mutation A) (dea_recombination A)
                                 (dea_strategy A) (dea_updating A))).
  Proof.
    intro HR. unfold de_minimize. cbn [dea dea_mutation dea_recombination dea_strategy dea_updating].
    eapply track_bind; [apply same_eq with (m := check_pop (lim1 (dea A))); reflexivity|]. intros ? ? _.
    eapply track_bind; [apply same_refl|]. intros ? ? _.
    eapply track_bind; [apply same_refl|]. intros ? ? _.
    eapply track_bind; [apply same_refl|]. intros ? ? _.
    eapply track_bind; [apply same_refl|]. intros st ? <-.
    eapply track_bind; [apply same_eq with (m := seed_and_cb (lim1 (dea A))); reflexivity|]. intros ? ? _.
    change (is_sync (dea_updating A) (lim1 (dea A))) with (is_sync (dea_updating A) (dea A)).
    change (is_sync (dea_updating A) (lim2 (dea A))) with (is_sync (dea_updating A) (dea A)).
    set (sync := is_sync (dea_updating A) (dea A)). unfold de.
    cbn [with_limits a_workers a_backend a_bounds a_constraints a_popsize a_x0 a_x0_array
         a_return_all a_verbosity a_maxiter a_xtol a_ftol].
    change (has_cb (lim1 (dea A))) with (has_cb (dea A)).
    change (has_cb (lim2 (dea A))) with (has_cb (dea A)).
    eapply track_bind; [apply same_refl|]. intros mode ? <-.
    eapply track_bind; [apply same_refl|]. intros [lo up] ? <-.
    eapply track_bind; [apply same_refl|]. intros con ? <-. cbn zeta.
    eapply track_bind; [apply same_refl|]. intros X ? <-.
    eapply track_bind; [apply same_refl|]. intros ? ? _.
    eapply track_bind; [apply same_refl|]. intros [X1 pfit] ? <-.
    eapply track_bind; [apply same_refl|]. intros ? ? _.
    eapply track_bind; [apply same_refl|]. intros gb ? <-.
    rewrite <- rec_alloc_limit by (destruct HR as [HR|HR]; [left; exact HR | right; lia]).
    eapply track_bind; [apply same_post, alloc_none|]. intros nout ? [<- Hn].
    assert (HF1 : fits nout 2).
    { destruct HR as [HR|HR]; [left; auto | right; exact HR]. }
    assert (HF : fits nout 1) by (destruct HF1 as [K|K]; [left; exact K | right; lia]).
    rewrite <- rec_write_limit by exact HF.
    eapply track_bind.
    { apply same_post, (post_rec_write nout mi 1); apply start_record. }
    intros r ? [<- Hr]. eapply track_bind; [apply same_refl|]. intros ? ? _.
    set (P := mkDEParams (dea_mutation A) (dea_recombination A) st con (Z.to_nat (a_popsize (dea A)))
                (nd_len (a_bounds (dea A))) lo up mi xt ft mode nout
                match a_x0 (dea A) with Some _ => a_x0_array (dea A) | None => false end
                match a_x0 (dea A) with Some _ => negb (a_x0_array (dea A)) | None => false end).
    assert (Hrec : nout = None <-> r = None).
    { eapply grows_none; [apply start_record | exact Hr]. }
    apply (track_drive SR (de_drv (de_l P mi xt ft) sync) (de_drv (de_l P mi' xt' ft') sync) mi mi'
             (Kde P) (Ide (de_l P mi xt ft)) (Ide (de_l P mi' xt' ft'))).
    - apply de_stepwise.
    - intros it0 u0 v0 H. apply rel_ret. exact H.
    - apply de_adds.
    - apply de_adds.
    - intros; apply disc_de_step.
    - intros; apply disc_de_step.
    - intros; apply disc_ret.
    - intros; apply disc_ret.
    - split; [reflexivity | exact HF1].
    - exact Hrec.
    - exact Hrec.
    - unfold fuel. lia.
    - unfold fuel. lia.
    - unfold fuel. lia.
    - unfold fuel. lia.
  Qed.

  (** ** Particle swarms *)
  Definition ps_l (P : PSOParams) (dl : T) (m : Z) (x f : T) : PSOParams :=
    mkPSOParams (ps_w P) (ps_c1 P) (ps_c2 P) (ps_con P) (ps_gamma P) dl (ps_p P) (ps_d P)
                (ps_lower P) (ps_upper P) m x f (ps_mode P) (ps_nout P) (ps_alias P) (ps_list P).

  Definition GenSame (rec0 : option Rec) {S} (rc : S -> option Rec) (it : Z) (p q : S * option Z) : Prop :=
    fst p = fst q /\ rc (fst p) = rec0 /\ SR (snd p) (snd q) /\
    (forall c, snd p = Some c -> message c <> None) /\
    (forall c, snd q = Some c -> message c <> None) /\
    (snd p = None -> (it < mi)%Z) /\ (snd q = None -> (it < mi')%Z).

  Lemma pso_sync_same P dl dl' it r1 r2 s :
    same (pso_sync (ps_l P dl mi xt ft) it r1 r2 s) (pso_sync (ps_l P dl' mi' xt' ft') it r1 r2 s)
         (GenSame (pss_rec s) pss_rec it).
  Proof.
    unfold pso_sync. eapply rel_bind; [apply same_refl|]. intros ? ? _.
    change (pso_moves (ps_l P dl' mi' xt' ft') r1 r2 s) with (pso_moves (ps_l P dl mi xt ft) r1 r2 s).
    cbn zeta. set (XV := pso_moves _ r1 r2 s). unfold selection_sync.
    cbn [ps_l ps_mode ps_maxiter ps_xtol ps_ftol].
    eapply rel_bind with (Q := fun p q => exists c cf, p = sync_sel it c cf (pss_gbest s) (pss_pbest s) (pss_pbestfit s) mi xt ft /\
                                              q = sync_sel it c cf (pss_gbest s) (pss_pbest s) (pss_pbestfit s) mi' xt' ft').
    { eapply rel_bind; [apply same_refl|]. intros [c cf] ? <-.
      eapply rel_bind; [apply same_refl|]. intros ? ? _. apply rel_ret. eauto. }
    intros p q (c & cf & -> & ->). apply rel_ret. cbn. unfold GenSame. cbn.
    repeat split; auto; try (intro; apply sync_status_msg); apply sync_status_none.
  Qed.

  Lemma pso_async_same P dl dl' it r1 r2 s :
    same (pso_async (ps_l P dl mi xt ft) it r1 r2 s) (pso_async (ps_l P dl' mi' xt' ft') it r1 r2 s)
         (GenSame (pss_rec s) pss_rec it).
  Proof.
    unfold pso_async. cbn [ps_l ps_p ps_maxiter].
    pose (G := fun p q : PSOS * option Z => fst p = fst q /\ pss_rec (fst p) = pss_rec s /\
                 SA (snd p) (snd q) /\ okst (snd p) /\ okst (snd q)).
    eapply rel_bind with (Q := G).
    { assert (F : forall l p q, G p q ->
                same (foldM (pso_async_one (ps_l P dl mi xt ft) r1 r2) p l)
                     (foldM (pso_async_one (ps_l P dl' mi' xt' ft') r1 r2) q l) G).
      { induction l as [|i l IH]; intros p q H; cbn [foldM]; [apply rel_ret, H|].
        destruct p as [sp cp], q as [sq cq]. destruct H as (H1 & H2 & _). cbn [fst] in H1, H2.
        subst sq. eapply rel_bind; [|exact IH].
        unfold pso_async_one. cbn [fst].
        change (pso_mutation (ps_l P dl' mi' xt' ft')) with (pso_mutation (ps_l P dl mi xt ft)).
        cbn zeta. match goal with |- context [pso_mutation ?A ?B ?C ?D ?E0 ?F0 ?G0] =>
          set (xv := pso_mutation A B C D E0 F0 G0) end.
        eapply rel_bind; [apply same_refl|]. intros ? ? _.
        unfold selection_async. cbn [ps_l ps_xtol ps_ftol].
        eapply rel_bind with (Q := fun p q => exists cf,
            p = async_sel (fst xv) cf (pss_gbest sp) (pss_gfit sp) (pss_pbest sp) (pss_pbestfit sp) xt ft i /\
            q = async_sel (fst xv) cf (pss_gbest sp) (pss_gfit sp) (pss_pbest sp) (pss_pbestfit sp) xt' ft' i).
        { eapply rel_bind; [apply same_refl|]. intros cf ? <-. apply rel_ret. eauto. }
        intros p q (cf & -> & ->).
        destruct (async_same (fst xv) cf (pss_gbest sp) (pss_gfit sp) (pss_pbest sp) (pss_pbestfit sp) xt ft xt' ft' i)
          as (-> & -> & -> & -> & ->).
        apply rel_ret. unfold G. cbn. repeat split; auto; apply async_status. }
      apply F. unfold G. cbn. repeat split; auto; left; reflexivity. }
    intros [s1 c] [s2 c'] (H1 & H2 & H3 & H4 & H5). cbn [fst snd] in *. subst s2. apply rel_ret.
    rewrite !fin_eq. unfold GenSame. cbn [fst snd]. split; [reflexivity|]. split; [exact H2|].
    split; [apply H3|]. split; [intro z; apply fin_msg, H4|]. split; [intro z; apply fin_msg, H5|].
    split; apply fin_none.
  Qed.

  Definition Kps (P : PSOParams) (it : Z) (a b : PSOS) : Prop := a = b /\ fits (ps_nout P) it.

  Lemma pso_stepwise P dl dl' sync :
    stepwise SR (pso_drv (ps_l P dl mi xt ft) sync) (pso_drv (ps_l P dl' mi' xt' ft') sync) mi mi' (Kps P).
  Proof.
    intros it a ? [<- HF]. cbn [pso_drv d_step]. unfold pso_step. cbn [ps_l ps_p ps_d].
    eapply rel_bind; [apply same_refl|]. intros r1 ? <-.
    eapply rel_bind; [apply same_refl|]. intros r2 ? <-.
    eapply rel_bind with (Q := GenSame (pss_rec a) pss_rec it).
    { destruct sync; [apply pso_sync_same | apply pso_async_same]. }
    intros [s c] [s' c'] (H1 & H2 & H3 & H4 & H5 & H6 & H7). cbn [fst snd] in *. subst s'.
    cbn [ps_l ps_nout ps_maxiter]. rewrite rec_write_limit by exact HF.
    eapply rel_bind; [apply same_refl|]. intros r ? <-. apply rel_ret. cbn.
    split; [repeat split|]. do 5 (split; [assumption|]). intros L1 L2. split; [reflexivity|]. right. lia.
  Qed.

  Definition Ips (P : PSOParams) (s : PSOS) : Prop := ps_nout P = None <-> pss_rec s = None.

  Lemma post_pso_gen P (sync : bool) it r1 r2 s :
    post (if sync then pso_sync P it r1 r2 s else pso_async P it r1 r2 s)
         (fun p => pss_rec (fst p) = pss_rec s).
  Proof.
    destruct sync.
    - unfold pso_sync. eapply post_bind; [apply post_any|]. intros U _.
      eapply post_bind; [apply post_any|]. intros sel _. apply post_ret. reflexivity.
    - unfold pso_async. eapply post_bind.
      { apply post_foldM with (Q := fun p => pss_rec (fst p) = pss_rec s); [reflexivity|].
        intros p i Hp. unfold pso_async_one. eapply post_bind; [apply post_any|]. intros u _.
        eapply post_bind; [apply post_any|]. intros sel _. apply post_ret. exact Hp. }
      intros [s1 c] H1. apply post_ret. exact H1.
  Qed.

  Lemma pso_adds P sync : adds (pso_drv P sync) (Ips P).
  Proof.
    split; intros it s HI.
    - cbn [pso_drv d_step d_rec]. unfold pso_step. eapply post_bind; [apply post_any|]. intros r1 _.
      eapply post_bind; [apply post_any|]. intros r2 _.
      eapply post_bind; [apply (post_pso_gen P sync it r1 r2 s)|]. intros [s' c] H. cbn [fst] in H.
      eapply post_bind; [apply post_rec_write; rewrite H; apply HI|]. intros r Hr. apply post_ret.
      rewrite H in Hr. cbn [fst pss_rec]. split; [|exact Hr]. unfold Ips in *. cbn.
      eapply grows_none; eassumption.
    - cbn [pso_drv d_post d_rec].
      assert (G : post (pso_post P it s) (fun s' => pss_rec s' = pss_rec s)).
      { unfold pso_post. destruct (ps_gamma P); [|apply post_ret; reflexivity]. unfold restart.
        destruct (nltb _ _); [|apply post_ret; reflexivity].
        eapply post_bind; [apply post_any|]. intros _ _.
        eapply post_bind; [apply post_any|]. intros nw _.
        destruct (0 <? nw)%Z; [|apply post_ret; reflexivity].
        eapply post_bind; [apply post_any|]. intros rows _.
        eapply post_bind; [apply post_any|]. intros _ _. apply post_ret. reflexivity. }
      intros st s' Hs. specialize (G st s' Hs). cbv beta in G. rewrite G. split; [|apply grows_refl].
      unfold Ips in *. rewrite G. exact HI.
  Qed.

  Lemma track_cpso_minimize A : RoomFor (pa A) -> mi = mi' \/ truthy (pa_competitivity A) = None ->
    track (cpso_minimize (mkCPSOArgs (lim1 (pa A)) (pa_inertia A) (pa_cognitivity A)
                            (pa_sociability A) (pa_competitivity A) (pa_updating A)))
          (cpso_minimize (mkCPSOArgs (lim2 (pa A)) (pa_inertia A) (pa_cognitivity A)
                            (pa_sociability A) (pa_competitivity A) (pa_updating A))).
  Proof.
    intros HR HG. unfold cpso_minimize.
    cbn [pa pa_inertia pa_cognitivity pa_sociability pa_competitivity pa_updating].
    eapply track_bind; [apply same_eq with (m := check_pop (lim1 (pa A))); reflexivity|]. intros ? ? _.
    eapply track_bind; [apply same_refl|]. intros ? ? _.
    eapply track_bind; [apply same_refl|]. intros ? ? _.
    eapply track_bind; [apply same_refl|]. intros ? ? _.
    eapply track_bind; [apply same_refl|]. intros ? ? _.
    eapply track_bind; [apply same_refl|]. intros ? ? _.
    eapply track_bind; [apply same_eq with (m := seed_and_cb (lim1 (pa A))); reflexivity|]. intros ? ? _.
    change (is_sync (pa_updating A) (lim1 (pa A))) with (is_sync (pa_updating A) (pa A)).
    change (is_sync (pa_updating A) (lim2 (pa A))) with (is_sync (pa_updating A) (pa A)).
    set (sync := is_sync (pa_updating A) (pa A)). unfold cpso.
    cbn [with_limits a_workers a_backend a_bounds a_constraints a_popsize a_x0 a_x0_array
         a_return_all a_verbosity a_maxiter a_xtol a_ftol].
    change (has_cb (lim1 (pa A))) with (has_cb (pa A)).
    change (has_cb (lim2 (pa A))) with (has_cb (pa A)).
    eapply track_bind; [apply same_refl|]. intros mode ? <-.
    eapply track_bind; [apply same_refl|]. intros [lo up] ? <-.
    eapply track_bind; [apply same_refl|]. intros con ? <-. cbn zeta.
    eapply track_bind; [apply same_refl|]. intros X ? <-.
    eapply track_bind; [apply same_refl|]. intros ? ? _.
    eapply track_bind; [apply same_refl|]. intros [X1 pfit] ? <-.
    eapply track_bind; [apply same_refl|]. intros ? ? _.
    eapply track_bind; [apply same_refl|]. intros gb ? <-.
    rewrite <- rec_alloc_limit by (destruct HR as [HR|HR]; [left; exact HR | right; lia]).
    eapply track_bind; [apply same_post, alloc_none|]. intros nout ? [<- Hn].
    assert (HF1 : fits nout 2).
    { destruct HR as [HR|HR]; [left; auto | right; exact HR]. }
    assert (HF : fits nout 1) by (destruct HF1 as [K|K]; [left; exact K | right; lia]).
    rewrite <- rec_write_limit by exact HF.
    eapply track_bind.
    { apply same_post, (post_rec_write nout mi 1); apply start_record. }
    intros r ? [<- Hr]. eapply track_bind; [apply same_refl|]. intros ? ? _.
    set (al := match a_x0 (pa A) with Some _ => a_x0_array (pa A) | None => false end && negb sync).
    set (li := match a_x0 (pa A) with Some _ => negb (a_x0_array (pa A)) | None => false end).
    set (P := mkPSOParams (pa_inertia A) (pa_cognitivity A) (pa_sociability A) con
                (truthy (pa_competitivity A)) (pso_delta (a_popsize (pa A)) mi)
                (Z.to_nat (a_popsize (pa A)))
                (nd_len (a_bounds (pa A))) lo up mi xt ft mode nout al li).
    assert (Hrec : nout = None <-> r = None).
    { eapply grows_none; [apply start_record | exact Hr]. }
    set (dl := pso_delta (a_popsize (pa A)) mi). set (dl' := pso_delta (a_popsize (pa A)) mi').
    apply (track_drive SR (pso_drv (ps_l P dl mi xt ft) sync) (pso_drv (ps_l P dl' mi' xt' ft') sync) mi mi'
             (Kps P) (Ips (ps_l P dl mi xt ft)) (Ips (ps_l P dl' mi' xt' ft'))).
    - apply pso_stepwise.
    - intros it0 u0 v0 [<- H]. cbn [pso_drv d_post].
      apply rel_conseq with (Q := eq); [|intros u1 ? <-; split; [reflexivity | exact H]].
      destruct HG as [HG|HG].
      + apply same_eq. unfold dl', dl. rewrite <- HG. reflexivity.
      + apply same_eq. unfold pso_post. cbn [ps_l ps_gamma P]. rewrite HG. reflexivity.
    - apply pso_adds.
    - apply pso_adds.
    - intros; apply disc_pso_step.
    - intros; apply disc_pso_step.
    - intros; apply disc_pso_post.
    - intros; apply disc_pso_post.
    - split; [reflexivity | exact HF1].
    - exact Hrec.
    - exact Hrec.
    - unfold fuel. lia.
    - unfold fuel. lia.
    - unfold fuel. lia.
    - unfold fuel. lia.
  Qed.

  (** ** Neighborhood algorithm *)
  Definition na_l (P : NAParams) (m : Z) (x f : T) : NAParams :=
    mkNAParams (na_p P) (na_d P) (na_nr P) (na_lower P) (na_upper P) m x f (na_mode P) (na_nout P).

  Definition Kna (P : NAParams) (it : Z) (a b : NAS) : Prop := a = b /\ fits (na_nout P) it.
  Definition Ina (P : NAParams) (s : NAS) : Prop := na_nout P = None <-> nas_rec s = None.

  Lemma na_stepwise P :
    stepwise SR (na_drv (na_l P mi xt ft)) (na_drv (na_l P mi' xt' ft')) mi mi' (Kna P).
  Proof.
    intros it a ? [<- HF]. cbn [na_drv d_step]. unfold na_step.
    eapply rel_bind.
    { apply same_eq with (m' := na_mutation (na_l P mi xt ft) (nas_Xall a) (nas_Xallfit a)). reflexivity. }
    intros X ? <-. unfold selection_sync. cbn [na_l na_maxiter na_xtol na_ftol na_nout na_lower na_upper].
    eapply rel_bind with (Q := fun p q => exists c cf, p = sync_sel it c cf (nas_gbest a) (nas_pbest a) (nas_pbestfit a) mi xt ft /\
                                              q = sync_sel it c cf (nas_gbest a) (nas_pbest a) (nas_pbestfit a) mi' xt' ft').
    { eapply rel_bind.
      { apply same_eq with (m' := na_eval (na_l P mi xt ft) X). reflexivity. }
      intros [c cf] ? <-.
      eapply rel_bind; [apply same_refl|]. intros ? ? _. apply rel_ret. eauto. }
    intros p q (c & cf & -> & ->). cbn zeta. cbn [sync_sel ss_candfun].
    rewrite rec_write_limit by exact HF.
    eapply rel_bind; [apply same_refl|]. intros r ? <-. apply rel_ret. cbn.
    split; [repeat split|]. split; [apply HSync|]. split; [intro; apply sync_status_msg|].
    split; [intro; apply sync_status_msg|]. split; [apply sync_status_none|].
    split; [apply sync_status_none|]. intros L1 L2. split; [reflexivity|]. right. lia.
  Qed.

  Lemma na_adds P : adds (na_drv P) (Ina P).
  Proof.
    split; intros it s HI.
    - cbn [na_drv d_step d_rec]. unfold na_step. eapply post_bind; [apply post_any|]. intros X _.
      eapply post_bind; [apply post_any|]. intros sel _. cbn zeta.
      eapply post_bind; [apply post_rec_write; apply HI|]. intros r Hr. apply post_ret.
      cbn [fst nas_rec]. split; [|exact Hr]. unfold Ina in *. cbn.
      eapply grows_none; eassumption.
    - cbn. apply post_ret. split; [exact HI | apply grows_refl].
  Qed.

  Lemma track_na_minimize A : RoomFor (naa A) ->
    track (na_minimize (mkNAArgs (lim1 (naa A)) (naa_nrperc A)))
          (na_minimize (mkNAArgs (lim2 (naa A)) (naa_nrperc A))).
  Proof.
    intros HR. unfold na_minimize. cbn [naa naa_nrperc].
    eapply track_bind; [apply same_eq with (m := check_pop (lim1 (naa A))); reflexivity|]. intros ? ? _.
    eapply track_bind; [apply same_refl|]. intros ? ? _.
    eapply track_bind; [apply same_eq with (m := seed_and_cb (lim1 (naa A))); reflexivity|]. intros ? ? _.
    unfold na.
    cbn [with_limits a_workers a_backend a_bounds a_constraints a_popsize a_x0 a_x0_array
         a_return_all a_verbosity a_maxiter a_xtol a_ftol].
    change (has_cb (lim1 (naa A))) with (has_cb (naa A)).
    change (has_cb (lim2 (naa A))) with (has_cb (naa A)).
    eapply track_bind; [apply same_refl|]. intros mode ? <-.
    eapply track_bind; [apply same_refl|]. intros [lo up] ? <-. cbn zeta.
    eapply track_bind; [apply same_refl|]. intros nr ? <-.
    eapply track_bind; [apply same_refl|]. intros X ? <-.
    eapply track_bind.
    { apply same_eq with (m := na_eval (mkNAParams (Z.to_nat (a_popsize (naa A))) (nd_len (a_bounds (naa A)))
                                          (Z.to_nat (Z.max 1 nr)) lo up mi xt ft mode None)
                                       (map (normalize lo up) X)). reflexivity. }
    intros [X1 pfit] ? <-.
    eapply track_bind; [apply same_refl|]. intros gb ? <-.
    rewrite <- rec_alloc_limit by (destruct HR as [HR|HR]; [left; exact HR | right; lia]).
    eapply track_bind; [apply same_post, alloc_none|]. intros nout ? [<- Hn].
    assert (HF1 : fits nout 2).
    { destruct HR as [HR|HR]; [left; auto | right; exact HR]. }
    assert (HF : fits nout 1) by (destruct HF1 as [K|K]; [left; exact K | right; lia]).
    rewrite <- rec_write_limit by exact HF.
    eapply track_bind.
    { apply same_post, (post_rec_write nout mi 1); apply start_record. }
    intros r ? [<- Hr]. eapply track_bind; [apply same_refl|]. intros ? ? _.
    set (P := mkNAParams (Z.to_nat (a_popsize (naa A))) (nd_len (a_bounds (naa A)))
                (Z.to_nat (Z.max 1 nr)) lo up mi xt ft mode nout).
    assert (Hrec : nout = None <-> r = None).
    { eapply grows_none; [apply start_record | exact Hr]. }
    apply (track_drive SR (na_drv (na_l P mi xt ft)) (na_drv (na_l P mi' xt' ft')) mi mi'
             (Kna P) (Ina (na_l P mi xt ft)) (Ina (na_l P mi' xt' ft'))).
    - apply na_stepwise.
    - intros it0 u0 v0 H. apply rel_ret. exact H.
    - apply na_adds.
    - apply na_adds.
    - intros; apply disc_na_step.
    - intros; apply disc_na_step.
    - intros; apply disc_ret.
    - intros; apply disc_ret.
    - split; [reflexivity | exact HF1].
    - exact Hrec.
    - exact Hrec.
    - unfold fuel. lia.
    - unfold fuel. lia.
    - unfold fuel. lia.
    - unfold fuel. lia.
  Qed.
End Pop.

(** ** CMA-ES and VD-CMA *)
Section Cma.
  Context {N : Num} {E : Env N}.
  Variable SR : option Z -> option Z -> Prop.
  Variables mi mi' : Z.
  Variables xt xt' ft ft' : T.

  Notation same := (@rel N E E eq).
  Notation track := (track SR).
  Notation lim1 := (with_limits mi xt ft).
  Notation lim2 := (with_limits mi' xt' ft').

  (** The array arbestfitness after [length h] iterations: the rest is still zero. *)
  Definition padded (m : Z) (h : vec) : vec := h ++ repeat n0 (Z.to_nat (m - Z.of_nat (length h))).

  Hypothesis HConv : forall it d xm xo h f b sg isg il pc dC BD,
    Z.of_nat (length h) = it -> (1 <= it <= mi)%Z -> (it <= mi')%Z ->
    SR (converge it d mi xm xo (padded mi h) f b sg isg il pc xt ft dC BD)
       (converge it d mi' xm xo (padded mi' h) f b sg isg il pc xt' ft' dC BD).
  Hypothesis HM : (1 <= mi)%Z.
  Hypothesis HM' : (1 <= mi')%Z.

  Lemma converge_msg it d m xm xo h f b sg isg il pc x t dC BD c :
    converge it d m xm xo h f b sg isg il pc x t dC BD = Some c -> message c <> None.
  Proof.
    unfold converge. repeat match goal with |- (if ?b then _ else _) = _ -> _ => destruct b end;
      intros [= <-]; discriminate.
  Qed.
  Lemma converge_none it d m xm xo h f b sg isg il pc x t dC BD :
    converge it d m xm xo h f b sg isg il pc x t dC BD = None -> (it < m)%Z.
  Proof.
    unfold converge. destruct (m <=? it)%Z eqn:H; [discriminate|]. intros _. apply Z.leb_gt, H.
  Qed.

  Lemma upd_app_mid {A} (l : list A) y x r : upd (length l) x (l ++ y :: r) = l ++ x :: r.
  Proof. induction l as [|z l IH]; cbn; [reflexivity|]. rewrite IH. reflexivity. Qed.

  Lemma padded_set m h it v : Z.of_nat (length h) = (it - 1)%Z -> (1 <= it <= m)%Z ->
    upd (Z.to_nat (it - 1)) v (padded m h) = padded m (h ++ [v]).
  Proof.
    intros H1 H2. unfold padded. rewrite app_length. cbn [length].
    replace (Z.to_nat (m - Z.of_nat (length h))) with (S (Z.to_nat (m - Z.of_nat (length h + 1)))) by lia.
    cbn [repeat]. replace (Z.to_nat (it - 1)) with (length h) by lia.
    rewrite upd_app_mid, <- app_assoc. reflexivity.
  Qed.

  Definition cm_l (P : CMAParams) (m : Z) (x f : T) : CMAParams :=
    mkCMAParams (cm_p P) (cm_d P) (cm_mu P) (cm_w P) (cm_mueff P) (cm_xm P) (cm_xstd P) (cm_pen P)
                m x f (cm_insigma P) (cm_ilim P) (cm_mode P) (cm_nout P).

  Lemma hist_same P it v h : Z.of_nat (length h) = (it - 1)%Z -> (1 <= it <= mi)%Z -> (it <= mi')%Z ->
    same (hist_set (cm_l P mi xt ft) it v (padded mi h)) (hist_set (cm_l P mi' xt' ft') it v (padded mi' h))
         (fun a b => a = padded mi (h ++ [v]) /\ b = padded mi' (h ++ [v])).
  Proof.
    intros H1 H2 H3. unfold hist_set. cbn [cm_l cm_maxiter].
    destruct (Z.ltb_spec mi it); [lia|]. destruct (Z.ltb_spec mi' it); [lia|].
    apply rel_ret. split; apply padded_set; auto; lia.
  Qed.

  Definition cs_with (a : CMAS) (h : vec) : CMAS :=
    mkCMAS (cs_xmean a) (cs_xold a) (cs_pc a) (cs_ps a) (cs_B a) (cs_D a) (cs_C a) (cs_inv a)
           (cs_sigma a) (cs_pen a) (cs_nfev a) (cs_eigeneval a) h (cs_valid a) (cs_fit a)
           (cs_index a) (cs_rec a).

  Definition Kcm (it : Z) (a b : CMAS) : Prop :=
    (1 <= it <= mi)%Z /\ (it <= mi')%Z /\
    exists s h, Z.of_nat (length h) = (it - 1)%Z /\ a = cs_with s (padded mi h) /\
                b = cs_with s (padded mi' h).

  Lemma cma_stepwise P :
    stepwise SR (cma_drv (cm_l P mi xt ft)) (cma_drv (cm_l P mi' xt' ft')) mi mi' Kcm.
  Proof.
    intros it a b (H1 & H2 & s & h & H3 & -> & ->). cbn [cma_drv d_step]. unfold cma_step.
    eapply rel_bind.
    { apply same_eq with (m' := cma_sample (cm_l P mi xt ft) s). reflexivity. }
    intros arx ? E1. assert (E1' : arx = b) by exact E1. clear E1. subst b.
    eapply rel_bind.
    { apply same_eq with (m' := cma_fitness (cm_l P mi xt ft) arx (cs_xmean s) (cs_xold s) (cs_sigma s)
                                   (mdiag (cs_C s)) it (cs_pen s)). reflexivity. }
    intros [[fit valid] pen] ? <-. cbn zeta.
    cbn [cs_with cs_xmean cs_xold cs_pc cs_ps cs_B cs_D cs_C cs_inv cs_sigma cs_pen cs_nfev
         cs_eigeneval cs_hist cs_rec].
    eapply rel_bind.
    { apply same_eq. unfold cma_record. cbn [cm_l cm_nout cm_maxiter].
      apply (rec_write_limit mi mi'). right. lia. }
    intros r ? <-.
    eapply rel_bind; [apply hist_same; assumption|]. intros hh ? [-> ->].
    cbn [cm_l cm_d cm_p cm_mu cm_w cm_mueff cm_maxiter cm_xtol cm_ftol cm_insigma cm_ilim].
    change (cma_ps (cm_l P mi' xt' ft') (cs_with s (padded mi' h)))
      with (cma_ps (cm_l P mi xt ft) (cs_with s (padded mi h))).
    change (cma_cond (cm_l P mi' xt' ft')) with (cma_cond (cm_l P mi xt ft)).
    change (cma_pc (cm_l P mi' xt' ft') (cs_with s (padded mi' h)))
      with (cma_pc (cm_l P mi xt ft) (cs_with s (padded mi h))).
    eapply rel_bind; [apply same_refl|]. intros [[[[B D] C] inv] ee] ? <-. apply rel_ret.
    cbn [fst snd]. split; [repeat split|].
    split; [apply HConv; [rewrite app_length; cbn; lia | lia | lia]|].
    split; [intro c; apply converge_msg|]. split; [intro c; apply converge_msg|].
    split; [apply converge_none|]. split; [apply converge_none|].
    intros L1 L2. split; [lia|]. split; [lia|].
    eexists (mkCMAS _ _ _ _ _ _ _ _ _ _ _ _ [] _ _ _ _), _.
    split; [|split; reflexivity]. rewrite app_length. cbn. lia.
  Qed.

  Definition Icm (P : CMAParams) (s : CMAS) : Prop := cm_nout P = None <-> cs_rec s = None.

  Lemma cma_adds P : adds (cma_drv P) (Icm P).
  Proof.
    split; intros it s HI.
    - cbn [cma_drv d_step d_rec]. unfold cma_step.
      eapply post_bind; [apply post_any|]. intros arx _.
      eapply post_bind; [apply post_any|]. intros [[fit valid] pen] _. cbn zeta.
      eapply post_bind; [apply post_rec_write; apply HI|]. intros r Hr.
      eapply post_bind; [apply post_any|]. intros hh _.
      eapply post_bind; [apply post_any|]. intros [[[[B D] C] inv] ee] _. apply post_ret.
      cbn [fst cs_rec]. split; [|exact Hr]. unfold Icm in *. cbn. eapply grows_none; eassumption.
    - cbn. apply post_ret. split; [exact HI | apply grows_refl].
  Qed.

  Lemma cma_check_limits A :
    cma_check (mkCMAArgs (lim1 (caa A)) (caa_sigma A) (caa_muperc A)) =
    cma_check (mkCMAArgs (lim2 (caa A)) (caa_sigma A) (caa_muperc A)).
  Proof. reflexivity. Qed.

  Lemma cma_alloc_limits a : cma_alloc (lim1 a) = cma_alloc (lim2 a).
  Proof.
    unfold cma_alloc. cbn [with_limits a_bounds a_return_all a_verbosity a_popsize a_maxiter].
    rewrite (rec_alloc_limit mi mi') by (right; lia).
    destruct (Z.ltb_spec mi 0); [lia|]. destruct (Z.ltb_spec mi' 0); [lia|]. reflexivity.
  Qed.

  Lemma cma_setup_limits A :
    same (cma_setup (mkCMAArgs (lim1 (caa A)) (caa_sigma A) (caa_muperc A)))
         (cma_setup (mkCMAArgs (lim2 (caa A)) (caa_sigma A) (caa_muperc A)))
         (fun p q => fst p = fst q /\ exists P, snd p = cm_l P mi xt ft /\ snd q = cm_l P mi' xt' ft').
  Proof.
    unfold cma_setup. cbn [caa caa_sigma caa_muperc].
    cbn [with_limits a_bounds a_constraints a_x0 a_popsize a_maxiter a_xtol a_ftol a_workers a_backend].
    eapply rel_bind; [apply same_refl|]. intros m ? <-.
    eapply rel_bind; [apply same_refl|]. intros [l u] ? <-. cbn zeta.
    eapply rel_bind; [apply same_refl|]. intros pen ? <-.
    eapply rel_bind; [apply same_refl|]. intros xm ? <-.
    eapply rel_bind; [apply same_refl|]. intros mu ? <-. apply rel_ret. cbn [fst snd].
    split; [reflexivity|]. eexists (mkCMAParams _ _ _ _ _ _ _ _ mi xt ft _ _ _ _). split; reflexivity.
  Qed.

  Lemma track_cmaes_minimize A :
    track (cmaes_minimize (mkCMAArgs (lim1 (caa A)) (caa_sigma A) (caa_muperc A)))
          (cmaes_minimize (mkCMAArgs (lim2 (caa A)) (caa_sigma A) (caa_muperc A))).
  Proof.
    unfold cmaes_minimize.
    eapply track_bind; [apply same_eq, cma_check_limits|]. intros ? ? _. unfold cmaes.
    eapply track_bind; [apply cma_setup_limits|]. intros [xm P1] [xm' P2] [H0 [P [H1 H2]]].
    cbn [fst snd] in H0, H1, H2. subst xm' P1 P2. cbn [caa caa_sigma]. rewrite <- cma_alloc_limits.
    eapply track_bind; [apply same_refl|]. intros [nout ilim] ? <-.
    cbn [cm_l cm_p cm_d cm_mu cm_w cm_mueff cm_xm cm_xstd cm_pen cm_maxiter cm_xtol cm_ftol
         cm_insigma cm_mode with_limits a_maxiter].
    change (has_cb (lim1 (caa A))) with (has_cb (caa A)).
    change (has_cb (lim2 (caa A))) with (has_cb (caa A)).
    set (PP := mkCMAParams (cm_p P) (cm_d P) (cm_mu P) (cm_w P) (cm_mueff P) (cm_xm P) (cm_xstd P)
                           (cm_pen P) mi xt ft (cm_insigma P) ilim (cm_mode P) nout).
    apply (track_drive SR (cma_drv (cm_l PP mi xt ft)) (cma_drv (cm_l PP mi' xt' ft')) mi mi' Kcm
             (Icm (cm_l PP mi xt ft)) (Icm (cm_l PP mi' xt' ft'))).
    - apply cma_stepwise.
    - intros it0 u0 v0 H. apply rel_ret. exact H.
    - apply cma_adds.
    - apply cma_adds.
    - intros; apply disc_cma_step.
    - intros; apply disc_cma_step.
    - intros; apply disc_ret.
    - intros; apply disc_ret.
    - split; [lia|]. split; [lia|]. eexists (mkCMAS _ _ _ _ _ _ _ _ _ _ _ _ [] _ _ _ _), [].
      split; [cbn; lia|]. unfold padded, cs_with. cbn. rewrite !Z.sub_0_r. split; reflexivity.
    - unfold Icm. cbn. apply start_record.
    - unfold Icm. cbn. apply start_record.
    - unfold fuel. lia.
    - unfold fuel. lia.
    - unfold fuel. lia.
    - unfold fuel. lia.
  Qed.

  Definition vs_with (a : VDS) (h : vec) : VDS :=
    mkVDS (vs_xmean a) (vs_xold a) (vs_dx a) (vs_ps a) (vs_dvec a) (vs_vvec a) (vs_nv2 a) (vs_nv a)
          (vs_vn a) (vs_vnn a) (vs_pc a) (vs_inj a) (vs_sigma a) (vs_pen a) (vs_nfev a) h
          (vs_valid a) (vs_fit a) (vs_index a) (vs_rec a).

  Definition Kvd (it : Z) (a b : VDS) : Prop :=
    (1 <= it <= mi)%Z /\ (it <= mi')%Z /\
    exists s h, Z.of_nat (length h) = (it - 1)%Z /\ a = vs_with s (padded mi h) /\
                b = vs_with s (padded mi' h).

  Lemma vd_stepwise P :
    stepwise SR (vd_drv (cm_l P mi xt ft)) (vd_drv (cm_l P mi' xt' ft')) mi mi' Kvd.
  Proof.
    intros it a b (H1 & H2 & s & h & H3 & -> & ->). cbn [vd_drv d_step]. unfold vd_step.
    eapply rel_bind.
    { apply same_eq with (m' := vd_sample (cm_l P mi xt ft) s). reflexivity. }
    intros ary ? E1. assert (E1' : ary = b) by exact E1. clear E1. subst b. cbn zeta.
    eapply rel_bind.
    { match goal with |- @rel _ _ _ _ _ _ ?m _ _ => apply same_eq with (m' := m) end. reflexivity. }
    intros [[fit valid] pen] ? <-. cbn zeta.
    cbn [vs_with vs_xmean vs_xold vs_dx vs_ps vs_dvec vs_vvec vs_nv2 vs_nv vs_vn vs_vnn vs_pc
         vs_inj vs_sigma vs_pen vs_nfev vs_hist vs_valid vs_fit vs_index vs_rec].
    eapply rel_bind.
    { apply same_eq. unfold cma_record. cbn [cm_l cm_nout cm_maxiter].
      apply (rec_write_limit mi mi'). right. lia. }
    intros r ? <-.
    eapply rel_bind; [apply hist_same; assumption|]. intros hh ? [-> ->].
    cbn [cm_l cm_d cm_p cm_mu cm_w cm_mueff cm_maxiter cm_xtol cm_ftol cm_insigma cm_ilim].
    change (vd_sigma (cm_l P mi' xt' ft') (vs_with s (padded mi' h)))
      with (vd_sigma (cm_l P mi xt ft) (vs_with s (padded mi h))).
    destruct (vd_sigma _ _ (e_argsort fit)) as [[ps sg] cond].
    destruct (vd_update _ _ _ _ _ _ _ _ _ _ _ _ _ _ _) as [vv dv].
    apply rel_ret. cbn [fst snd]. split; [repeat split|].
    split; [apply HConv; [rewrite app_length; cbn; lia | lia | lia]|].
    split; [intro c; apply converge_msg|]. split; [intro c; apply converge_msg|].
    split; [apply converge_none|]. split; [apply converge_none|].
    intros L1 L2. split; [lia|]. split; [lia|].
    eexists (mkVDS _ _ _ _ _ _ _ _ _ _ _ _ _ _ _ [] _ _ _ _), _.
    split; [|split; reflexivity]. rewrite app_length. cbn. lia.
  Qed.

  Definition Ivd (P : CMAParams) (s : VDS) : Prop := cm_nout P = None <-> vs_rec s = None.

  Lemma vd_adds P : adds (vd_drv P) (Ivd P).
  Proof.
    split; intros it s HI.
    - cbn [vd_drv d_step d_rec]. unfold vd_step.
      eapply post_bind; [apply post_any|]. intros ary _. cbn zeta.
      eapply post_bind; [apply post_any|]. intros [[fit valid] pen] _. cbn zeta.
      eapply post_bind; [apply post_rec_write; apply HI|]. intros r Hr.
      eapply post_bind; [apply post_any|]. intros hh _.
      destruct (vd_sigma _ _ (e_argsort fit)) as [[ps sg] cond].
      destruct (vd_update _ _ _ _ _ _ _ _ _ _ _ _ _ _ _) as [vv dv]. apply post_ret.
      cbn [fst vs_rec]. split; [|exact Hr]. unfold Ivd in *. cbn. eapply grows_none; eassumption.
    - cbn. apply post_ret. split; [exact HI | apply grows_refl].
  Qed.

  Lemma track_vdcma_minimize A :
    track (vdcma_minimize (mkCMAArgs (lim1 (caa A)) (caa_sigma A) (caa_muperc A)))
          (vdcma_minimize (mkCMAArgs (lim2 (caa A)) (caa_sigma A) (caa_muperc A))).
  Proof.
    unfold vdcma_minimize.
    eapply track_bind; [apply same_eq, cma_check_limits|]. intros ? ? _. unfold vdcma.
    eapply track_bind; [apply cma_setup_limits|]. intros [xm P1] [xm' P2] [H0 [P [H1 H2]]].
    cbn [fst snd] in H0, H1, H2. subst xm' P1 P2. cbn [caa caa_sigma cm_l cm_d].
    eapply track_bind; [apply same_refl|]. intros z ? <-. cbn zeta. rewrite <- cma_alloc_limits.
    eapply track_bind; [apply same_refl|]. intros [nout ilim] ? <-.
    cbn [cm_l cm_p cm_d cm_mu cm_w cm_mueff cm_xm cm_xstd cm_pen cm_maxiter cm_xtol cm_ftol
         cm_insigma cm_mode with_limits a_maxiter].
    change (has_cb (lim1 (caa A))) with (has_cb (caa A)).
    change (has_cb (lim2 (caa A))) with (has_cb (caa A)).
    set (PP := mkCMAParams (cm_p P) (cm_d P) (cm_mu P) (cm_w P) (cm_mueff P) (cm_xm P) (cm_xstd P)
                           (cm_pen P) mi xt ft (cm_insigma P) ilim (cm_mode P) nout).
    apply (track_drive SR (vd_drv (cm_l PP mi xt ft)) (vd_drv (cm_l PP mi' xt' ft')) mi mi' Kvd
             (Ivd (cm_l PP mi xt ft)) (Ivd (cm_l PP mi' xt' ft'))).
    - apply vd_stepwise.
    - intros it0 u0 v0 H. apply rel_ret. exact H.
    - apply vd_adds.
    - apply vd_adds.
    - intros; apply disc_vd_step.
    - intros; apply disc_vd_step.
    - intros; apply disc_ret.
    - intros; apply disc_ret.
    - split; [lia|]. split; [lia|]. eexists (mkVDS _ _ _ _ _ _ _ _ _ _ _ _ _ _ _ [] _ _ _ _), [].
      split; [cbn; lia|]. unfold padded, vs_with. cbn. rewrite !Z.sub_0_r. split; reflexivity.
    - unfold Ivd. cbn. apply start_record.
    - unfold Ivd. cbn. apply start_record.
    - unfold fuel. lia.
    - unfold fuel. lia.
    - unfold fuel. lia.
    - unfold fuel. lia.
  Qed.
End Cma.
