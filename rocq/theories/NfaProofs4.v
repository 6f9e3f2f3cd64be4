(** Running all paths at once finds a path to the final state exactly when there is one. *)
From Coq Require Import ZArith List Bool Lia.
From Verif Require Import NfaModel NfaSpec NfaProofs NfaProofs2 NfaProofs3.
Import ListNotations.
Open Scope Z_scope.

Section Sim.
Context (E : env) (txt : list Z) (A : tnfa) (NZ : forall c, In c txt -> c <> 0).

(** State q can be current at index k: reached from an initial state entered at or before k. *)
Definition enters (k : nat) (q : Z) : Prop := exists e, In e (initial A) /\ e_pos e = q /\ chk E txt (e_as e) k.
Definition stepped (k : nat) (q : Z) : Prop :=
  exists i p, (i < k)%nat /\ enters i p /\ path E txt (table A) i p k q.
Definition current (k : nat) (q : Z) : Prop :=
  exists i p, (i <= k)%nat /\ enters i p /\ path E txt (table A) i p k q.

Lemma current_split k q : current k q <-> stepped k q \/ enters k q.
Proof.
  split.
  - intros (i & p & L & En & P). destruct (Nat.eq_dec i k) as [->|N].
    + right. inversion P as [|? ? ? ? ? ? ? ? P']; subst; [exact En|].
      apply path_le in P'. lia.
    + left. exists i, p. split; [lia|auto].
  - intros [(i & p & L & En & P)|En].
    + exists i, p. split; [lia|auto].
    + exists k, q. split; [lia|]. split; [exact En|apply p_nil].
Qed.

Lemma path_snoc T i p k q :
  path E txt T i p (S k) q -> (i <= k)%nat ->
  exists t, In t T /\ path E txt T i p k (t_src t) /\ takes E txt t k /\ t_dst t = q.
Proof.
  intros P. remember (S k) as k1 eqn:Ek. revert Ek. induction P as [i p|i p t k1 q It St Tt P IH]; intros Ek L; [lia|].
  subst k1. destruct (Nat.eq_dec i k) as [->|N].
  - exists t. split; [exact It|]. rewrite St. split; [apply p_nil|]. split; [exact Tt|].
    inversion P as [|? ? ? ? ? ? ? ? P']; subst; [reflexivity|]. apply path_le in P'. lia.
  - destruct IH as (u & I1 & I2 & I3 & I4); [reflexivity|lia|]. exists u. split; [exact I1|].
    split; [|auto]. apply p_cons with (t := t); auto.
Qed.

Lemma stepped_S k q :
  stepped (S k) q <-> exists t, In t (table A) /\ current k (t_src t) /\ takes E txt t k /\ t_dst t = q.
Proof.
  split.
  - intros (i & p & L & En & P). destruct (path_snoc _ _ _ _ _ P ltac:(lia)) as (t & I1 & I2 & I3 & I4).
    exists t. split; [exact I1|]. split; [|auto]. exists i, p. split; [lia|auto].
  - intros (t & I1 & (i & p & L & En & P) & I3 & I4). exists i, p. split; [lia|]. split; [exact En|].
    eapply path_app; [exact P|]. eapply p_cons; [exact I1|reflexivity|exact I3|]. rewrite I4. apply p_nil.
Qed.

(** reach_next and reach_pos agree. *)
Definition good (pos : Z) (s : rst) : Prop :=
  (forall q, rpos s q <= pos) /\ (forall q, rpos s q = pos <-> In q (reach s))
  /\ (hit s = true <-> In (final A) (reach s)).

Lemma visit_good pos q s :
  good pos s -> good pos (visit A q pos s)
                /\ forall x, In x (reach (visit A q pos s)) <-> In x (reach s) \/ x = q.
Proof.
  intros (G1 & G2 & G3). unfold visit. destruct (Z.ltb_spec (rpos s q) pos) as [L|L].
  - split; [split; [|split]|]; cbn.
    + intros x. destruct (x =? q); [lia|apply G1].
    + intros x. rewrite in_app_iff, <- G2. cbn. destruct (Z.eqb_spec x q); [subst; tauto|].
      split; [auto|intros [H|[H|[]]]; [exact H|congruence]].
    + rewrite orb_true_iff, in_app_iff, G3, Z.eqb_eq. cbn. intuition congruence.
    + intros x. rewrite in_app_iff. cbn. intuition congruence.
  - split; [split; [|split]; assumption|]. intros x. split; [auto|]. intros [H| ->]; [exact H|].
    apply G2. pose proof (G1 q). lia.
Qed.

Lemma start_good k init : forall s,
  good (Z.of_nat k) s ->
  let s' := start E A init (Z.of_nat k) (before txt k) (after txt k) s in
  good (Z.of_nat k) s' /\ forall x, In x (reach s') <->
     In x (reach s) \/ exists e, In e init /\ e_pos e = x /\ chk E txt (e_as e) k.
Proof.
  induction init as [|e init IH]; intros s G; cbn zeta; cbn [start].
  - split; [exact G|]. intros x. split; [auto|]. intros [H|(e & [] & _)]. exact H.
  - assert (Sk : In (e_pos e) (reach s) ->
      forall x, (In x (reach s) \/ exists d, In d init /\ e_pos d = x /\ chk E txt (e_as d) k)
                <-> (In x (reach s) \/ exists d, In d (e :: init) /\ e_pos d = x /\ chk E txt (e_as d) k)).
    { intros Ie x. split.
      - intros [H|(d & I1 & I2)]; [auto|]. right. exists d. split; [right; exact I1|exact I2].
      - intros [H|(d & [<-|I1] & <- & I2)]; [auto|auto|]. right. exists d. auto. }
    destruct (Z.ltb_spec (rpos s (e_pos e)) (Z.of_nat k)) as [L|L].
    + destruct (negb (e_as e =? 0) && fails E (e_as e) (Z.of_nat k) (before txt k) (after txt k)) eqn:F.
      * apply andb_true_iff in F. destruct F as [_ F].
        specialize (IH s G). cbn zeta in IH. destruct IH as [I1 I2]. split; [exact I1|].
        intros x. rewrite I2. split.
        -- intros [H|(d & J1 & J2)]; [auto|]. right. exists d. split; [right; exact J1|exact J2].
        -- intros [H|(d & [<-|J1] & J2 & J3)]; [auto| |right; exists d; auto].
           unfold chk in J3. congruence.
      * assert (C : chk E txt (e_as e) k).
        { unfold chk. destruct (Z.eqb_spec (e_as e) 0) as [->|N]; [apply fails_0|]. cbn in F. exact F. }
        destruct (visit_good (Z.of_nat k) (e_pos e) s G) as [V1 V2].
        specialize (IH _ V1). cbn zeta in IH. destruct IH as [I1 I2]. split; [exact I1|].
        intros x. rewrite I2, V2. split.
        -- intros [[H| ->]|(d & J1 & J2)]; [auto| |].
           ++ right. exists e. split; [left; reflexivity|]. auto.
           ++ right. exists d. split; [right; exact J1|exact J2].
        -- intros [H|(d & [<-|J1] & <- & J3)]; [auto|auto|]. right. exists d. auto.
    + specialize (IH s G). cbn zeta in IH. destruct IH as [I1 I2]. split; [exact I1|].
      intros x. rewrite I2. apply Sk. apply (proj1 (proj2 G)). pose proof (proj1 G (e_pos e)). lia.
Qed.

Lemma leave_good pos c next q ts : forall s,
  good pos s ->
  let s' := leave E A q ts pos c next s in
  good pos s' /\ forall x, In x (reach s') <->
     In x (reach s) \/ exists t, In t ts /\ t_src t = q /\ fires E t pos c next = true /\ t_dst t = x.
Proof.
  induction ts as [|t ts IH]; intros s G; cbn zeta; cbn [leave].
  - split; [exact G|]. intros x. split; [auto|]. intros [H|(e & [] & _)]. exact H.
  - destruct ((t_src t =? q) && fires E t pos c next) eqn:F.
    + apply andb_true_iff in F. destruct F as [F1 F2]. apply Z.eqb_eq in F1.
      destruct (visit_good pos (t_dst t) s G) as [V1 V2].
      specialize (IH _ V1). cbn zeta in IH. destruct IH as [I1 I2]. split; [exact I1|].
      intros x. rewrite I2, V2. split.
      * intros [[H| ->]|(d & J1 & J2)]; [auto| |].
        -- right. exists t. split; [left; reflexivity|]. auto.
        -- right. exists d. split; [right; exact J1|exact J2].
      * intros [H|(d & [<-|J1] & J2 & J3 & <-)]; [auto|auto|]. right. exists d. auto.
    + specialize (IH s G). cbn zeta in IH. destruct IH as [I1 I2]. split; [exact I1|].
      intros x. rewrite I2. split.
      * intros [H|(d & J1 & J2)]; [auto|]. right. exists d. split; [right; exact J1|exact J2].
      * intros [H|(d & [<-|J1] & J2 & J3 & J4)]; [auto| |right; exists d; auto].
        apply Z.eqb_eq in J2. rewrite J2, J3 in F. discriminate.
Qed.

Lemma step_good pos c next qs : forall s,
  good pos s ->
  let s' := step E A qs pos c next s in
  good pos s' /\ forall x, In x (reach s') <->
     In x (reach s) \/ exists t, In t (table A) /\ In (t_src t) qs /\ fires E t pos c next = true /\ t_dst t = x.
Proof.
  induction qs as [|q qs IH]; intros s G; cbn zeta; cbn [step].
  - split; [exact G|]. intros x. split; [auto|]. intros [H|(e & _ & [] & _)]. exact H.
  - pose proof (leave_good pos c next q (table A) s G) as H. cbn zeta in H. destruct H as [V1 V2].
    specialize (IH _ V1). cbn zeta in IH. destruct IH as [I1 I2]. split; [exact I1|].
    intros x. rewrite I2, V2. split.
    + intros [[H|(t & J1 & J2 & J3)]|(t & J1 & J2 & J3)]; [auto| |]; right; exists t; (split; [exact J1|]).
      * split; [left; auto|exact J3].
      * split; [right; exact J2|exact J3].
    + intros [H|(t & J1 & [J2|J2] & J3)]; [auto| |].
      * left. right. exists t. auto.
      * right. exists t. auto.
Qed.

(** The loop. *)
Lemma run_spec rest : forall k s,
  rest = skipn k txt -> (k <= length txt)%nat ->
  good (Z.of_nat k) s -> hit s = false -> (forall q, In q (reach s) <-> stepped k q) ->
  run E A rest (Z.of_nat k) (before txt k) s = true
  <-> exists k', (k <= k' <= length txt)%nat /\ current k' (final A).
Proof.
  induction rest as [|c rest IH]; intros k s Er Lk G Hs Rs; cbn [run].
  - assert (Ek : k = length txt).
    { pose proof (skipn_length k txt) as SL. rewrite <- Er in SL. cbn in SL. lia. }
    assert (Af : hd 0 (@nil Z) = after txt k).
    { unfold after. cbn. symmetry. apply nth_overflow. lia. }
    rewrite Af. pose proof (start_good k (initial A) s G) as H. cbn zeta in H. destruct H as [G1 R1].
    assert (Rc : forall x, In x (reach (start E A (initial A) (Z.of_nat k) (before txt k) (after txt k) s)) <-> current k x).
    { intros x. rewrite R1, Rs, current_split. reflexivity. }
    destruct G1 as (_ & _ & Hh).
    destruct (hit (start E A (initial A) (Z.of_nat k) (before txt k) (after txt k) s)) eqn:Ht.
    + split; [intros _|reflexivity]. exists k. split; [lia|]. apply Rc. apply Hh. reflexivity.
    + split; [discriminate|]. intros (k' & L' & Cu). assert (k' = k) by lia. subst k'.
      apply Rc in Cu. apply Hh in Cu. discriminate.
  - assert (Lt : (k < length txt)%nat).
    { pose proof (skipn_length k txt) as SL. rewrite <- Er in SL. cbn in SL. lia. }
    assert (Ck : nth_error txt k = Some c).
    { rewrite <- (firstn_skipn k txt) at 1. rewrite nth_error_app2; rewrite firstn_length_le; try lia.
      replace (k - k)%nat with O by lia. rewrite <- Er. reflexivity. }
    assert (Er' : rest = skipn (S k) txt).
    { change (S k) with (1 + k)%nat. clear - Er. revert txt Er. induction k as [|k IHk]; intros l Er.
      - cbn in Er. subst l. reflexivity.
      - destruct l as [|a l]; [discriminate|]. apply IHk in Er. exact Er. }
    assert (Af : hd 0 (c :: rest) = after txt k).
    { unfold after. cbn. symmetry. apply nth_error_nth. exact Ck. }
    assert (Af' : hd 0 rest = after txt (S k)).
    { unfold after. rewrite Er'. generalize (S k). intros n. clear. revert txt. induction n as [|n IHn]; intros [|a l]; cbn; auto. }
    assert (Bf : before txt (S k) = c) by (unfold before; apply nth_error_nth; exact Ck).
    rewrite Af. pose proof (start_good k (initial A) s G) as H. cbn zeta in H. destruct H as [G1 R1].
    set (s1 := start E A (initial A) (Z.of_nat k) (before txt k) (after txt k) s) in *.
    assert (Rc : forall x, In x (reach s1) <-> current k x).
    { intros x. rewrite R1, Rs, current_split. reflexivity. }
    pose proof G1 as (P1 & _ & Hh). destruct (hit s1) eqn:Ht.
    + split; [intros _|reflexivity]. exists k. split; [lia|]. apply Rc. apply Hh. reflexivity.
    + destruct (Z.eqb_spec c 0) as [->|Nc]; [destruct (NZ 0); [eapply nth_error_In; exact Ck|reflexivity]|].
      rewrite Af'. replace (Z.of_nat k + 1) with (Z.of_nat (S k)) by lia.
      assert (G0 : good (Z.of_nat (S k)) {| reach := []; rpos := rpos s1; hit := false |}).
      { split; [|split]; cbn [reach rpos hit].
        - intros q. pose proof (P1 q). lia.
        - intros q. pose proof (P1 q). split; [lia|intros []].
        - split; [discriminate|intros []]. }
      pose proof (step_good (Z.of_nat (S k)) c (after txt (S k)) (reach s1) _ G0) as H. cbn zeta in H. destruct H as [G2 R2].
      set (s2 := step E A (reach s1) (Z.of_nat (S k)) c (after txt (S k)) {| reach := []; rpos := rpos s1; hit := false |}) in *.
      assert (Rs2 : forall q, In q (reach s2) <-> stepped (S k) q).
      { intros q. rewrite R2, stepped_S. cbn [reach]. split.
        - intros [[]|(t & I1 & I2 & I3 & I4)]. exists t. split; [exact I1|]. split; [apply Rc; exact I2|].
          split; [|exact I4]. exists c. split; [exact Ck|exact I3].
        - intros (t & I1 & I2 & (c' & C' & I3) & I4). right. unfold char_at in C'. rewrite Ck in C'. injection C' as <-.
          exists t. split; [exact I1|]. split; [apply Rc; exact I2|]. auto. }
      assert (NoK : ~ current k (final A)).
      { intros Cu. apply Rc in Cu. apply Hh in Cu. discriminate. }
      destruct (hit s2) eqn:Ht2.
      * split; [intros _|reflexivity]. exists (S k). split; [lia|]. apply current_split. left. apply Rs2.
        apply G2. exact Ht2.
      * rewrite <- Bf. rewrite (IH (S k) s2 Er' Lt G2 Ht2 Rs2). split.
        -- intros (k' & L' & Cu). exists k'. split; [lia|exact Cu].
        -- intros (k' & L' & Cu). exists k'. split; [|exact Cu].
           destruct (Nat.eq_dec k k') as [<-|]; [contradiction|lia].
Qed.
End Sim.

(** The automaton with the extra literal for the final state. *)
Lemma final_spec E txt r F :
  masks r -> simple r -> plain r -> apart r -> nonneg r -> 0 <= F -> ~ In F (poss r) ->
  let L := Lit {| l_pos := F; l_lo := 0; l_hi := 0; l_cls := 0; l_neg := [] |} in
  let A := {| table := trans (Cat r L); initial := first (Cat r L); final := F |} in
  forall k, current E txt A k F <-> exists i, (i <= k)%nat /\ den E txt r i k.
Proof.
  intros M S0 Pl Ap NN F0 NF L A k.
  assert (D : disjoint (poss r) (poss L)) by (intros x I [<-|[]]; contradiction).
  assert (SX : forall t, In t (make_trans (last r) (first L)) -> In (t_src t) (poss r) /\ In (t_dst t) (poss L)).
  { intros t It. destruct (make_sound _ _ _ It) as (e & f & I1 & I2 & ->). cbn [mk t_src t_dst].
    split; [apply last_pos; auto|apply first_pos; auto]. }
  split.
  - intros (i & p & Lik & (f & If & <- & Cf) & P). cbn [initial A] in If. cbn [table A] in P.
    exists i. split; [exact Lik|].
    assert (Fst : In f (first r) \/ (null r = true /\ e_pos f = F /\ chk E txt (emp r) i)).
    { cbn [first] in If. destruct (null r); [|auto]. apply in_union in If.
      destruct If as [(f1 & I1 & P1 & _ & _ & _ & _ & Q1)|If]; [right|auto]. split; [reflexivity|].
      destruct I1 as [<-|[]]. split; [exact P1|]. rewrite Q1 in Cf. apply chk_lor in Cf. tauto. }
    cbn [trans] in P. destruct Fst as [Ifr|(Nr & Pf & Ce)].
    + destruct (path_left E txt r L _ _ _ _ _ D SX P (first_pos _ _ Ifr)) as [[_ Q]|(m & p1 & t & P1 & It & Ts & Tt & P2 & Q)];
        [contradiction|].
      destruct (make_sound _ _ _ It) as (e & f' & J1 & J2 & ->). cbn in Ts.
      apply takes_mk in Tt; [|apply (last_ok r); auto|apply (first_ok L); cbn; auto]. destruct Tt as [T1 T2].
      assert (k = S m) by (inversion P2 as [|? ? ? ? ? I0]; [reflexivity|contradiction]). subst k.
      apply acc_sound; auto. exists f, m, p1, e. repeat (split; [solve [auto]|]). reflexivity.
    + destruct (path_right E txt r L _ _ _ _ _ D (fun t H => proj1 (SX t H)) P) as [P1 Q]; [left; auto|].
      assert (k = i) by (inversion P1 as [|? ? ? ? ? I0]; [reflexivity|contradiction]). subst k.
      apply null_sound; auto.
  - intros (i & Lik & H). destruct (Nat.eq_dec i k) as [->|N].
    + destruct (null_complete E txt r k M S0 Pl H) as [Nr Ce].
      exists k, F. split; [lia|]. split; [|apply p_nil].
      exists {| e_pos := F; e_lo := 0; e_hi := 0; e_cls := 0; e_neg := []; e_as := Z.lor 0 (emp r) |}.
      split; [|split; [reflexivity|]].
      * cbn [initial A first]. rewrite Nr. apply in_union. left. eexists. split; [left; reflexivity|]. cbn. auto 10.
      * cbn [e_as]. rewrite Z.lor_0_l. exact Ce.
    + destruct (acc_complete E txt r M S0 Ap NN Pl i k H ltac:(lia)) as (f & m & p & e & If & Cf & P & Ie & Pe & He & Ek).
      exists i, (e_pos f). split; [exact Lik|]. split.
      { exists f. split; [|auto]. cbn [initial A first]. destruct (null r); [apply in_union; auto|auto]. }
      cbn [table A trans]. subst k.
      set (fF := {| e_pos := F; e_lo := 0; e_hi := 0; e_cls := 0; e_neg := []; e_as := 0 |}).
      destruct (make_complete (last r) (first L) e fF Ie (or_introl eq_refl)) as (g & G1 & G2 & G3 & G4).
      { exact F0. }
      { intros e1 e2 [<-|[]] [<-|[]] _. reflexivity. }
      eapply path_app.
      { eapply path_incl; [|exact P]. intros t It. rewrite !in_app_iff. auto. }
      apply p_cons with (t := mk e g).
      { rewrite in_app_iff. auto. }
      { cbn. exact Pe. }
      { apply takes_mk; [apply (last_ok r); auto|apply (first_ok L); cbn; auto|]. split; [exact He|].
        rewrite G2. apply chk_0. }
      cbn [mk t_dst]. rewrite G1. apply p_nil.
Qed.

Lemma max_pos_spec r x : In x (poss r) -> x <= max_pos r.
Proof.
  induction r as [| |l|a IHa b IHb|a IHa b IHb|mn mx a IHa]; cbn; intros I; try contradiction.
  - destruct I as [<-|[]]. lia.
  - apply in_app_iff in I. destruct I as [I|I]; [apply IHa in I|apply IHb in I]; lia.
  - apply in_app_iff in I. destruct I as [I|I]; [apply IHa in I|apply IHb in I]; lia.
  - auto.
Qed.

Lemma within_nonneg lo hi r : within lo hi r -> 0 <= lo -> nonneg r.
Proof.
  unfold within. induction r as [| |l|a IHa b IHb|a IHa b IHb|mn mx a IHa]; cbn; intros W L; auto.
  - specialize (W (l_pos l) (or_introl eq_refl)). lia.
  - split; [apply IHa|apply IHb]; auto; intros x I; apply W; apply in_app_iff; auto.
  - split; [apply IHa|apply IHb]; auto; intros x I; apply W; apply in_app_iff; auto.
Qed.

Lemma within_max lo hi r : within lo hi r -> 0 <= lo -> lo <= hi -> max_pos r <= Z.max 0 (hi - 1).
Proof.
  unfold within. induction r as [| |l|a IHa b IHb|a IHa b IHb|mn mx a IHa]; cbn; intros W L H; try lia.
  - specialize (W (l_pos l) (or_introl eq_refl)). lia.
  - assert (max_pos a <= Z.max 0 (hi - 1)) by (apply IHa; auto; intros x I; apply W; apply in_app_iff; auto).
    assert (max_pos b <= Z.max 0 (hi - 1)) by (apply IHb; auto; intros x I; apply W; apply in_app_iff; auto). lia.
  - assert (max_pos a <= Z.max 0 (hi - 1)) by (apply IHa; auto; intros x I; apply W; apply in_app_iff; auto).
    assert (max_pos b <= Z.max 0 (hi - 1)) by (apply IHb; auto; intros x I; apply W; apply in_app_iff; auto). lia.
  - auto.
Qed.

Lemma matches_le E txt p : counts p -> forall i j, matches E txt p i j -> (i <= j)%nat.
Proof.
  intros C i j H. apply (number_den E txt p C 0) in H. apply den_le in H. exact H.
Qed.

Lemma den_length E txt r : forall i j, den E txt r i j -> (i <= length txt)%nat -> (j <= length txt)%nat.
Proof.
  induction r as [| |l|x IHx y IHy|x IHx y IHy|mn mx x IHx]; cbn [den]; intros i j H L.
  - lia.
  - lia.
  - destruct H as [-> (c & C & _)]. assert (i < length txt)%nat by (apply nth_error_Some; unfold char_at in C; congruence). lia.
  - destruct H as (k & H1 & H2). apply IHx in H1; [|exact L]. apply IHy in H2; auto.
  - destruct H; eauto.
  - destruct H as (n & H & _). revert i H L. induction n as [|n IH]; cbn; intros i H L; [lia|].
    destruct H as (k & H1 & H2). apply IHx in H1; [|exact L]. eauto.
Qed.

Lemma search E p txt :
  (forall c, In c txt -> c <> 0) -> counts p -> shallow p -> class_ok p -> placed p ->
  (regexec E p txt = true <-> found E txt p).
Proof.
  intros NZ C Sh Cl Pl. unfold regexec, regcomp.
  pose proof (number_shape p C 0) as Sp. pose proof (number_tidy p C 0) as Ti. pose proof (number_den E txt p C 0) as Dn.
  destruct (number p 0) as [r0 q]. cbn [fst] in *. cbn zeta in Sp.
  destruct Sp as (M0 & C0 & _ & Pl0 & _ & Cl0 & _ & _ & Sh0).
  specialize (Pl0 Pl). specialize (Cl0 Cl). specialize (Sh0 Sh).
  set (st0 := {| pos_add := 0; total := 0; depth := 0 |}).
  pose proof (expand_shallow r0 Sh0 0 q st0 Ti eq_refl eq_refl) as Fx.
  pose proof (expand_shape r0 st0 C0 M0 Pl0) as Fs.
  pose proof (expand_den E txt r0 st0 Cl0 C0) as Fd.
  destruct (expand r0 st0) as [r st]. cbn [fst] in *. destruct Fx as (Ap & W & L1 & Dp & Et). cbn [pos_add st0] in W, L1.
  destruct Fs as (M & S0 & Pn).
  pose proof (tidy_le _ _ _ Ti) as Lq.
  set (F := if q + total st <? max_pos r then max_pos r else q + total st).
  assert (HF : 0 <= F /\ ~ In F (poss r)).
  { unfold F. pose proof (within_max _ _ _ W ltac:(lia) ltac:(lia)) as Wm.
    destruct (Z.ltb_spec (q + total st) (max_pos r)); [lia|]. split; [lia|]. intros I. apply W in I. lia. }
  destruct HF as [F0 NF].
  set (A := {| table := _; initial := _; final := _ |}).
  assert (EA : A = {| table := trans (Cat r (Lit {| l_pos := F; l_lo := 0; l_hi := 0; l_cls := 0; l_neg := [] |}));
                      initial := first (Cat r (Lit {| l_pos := F; l_lo := 0; l_hi := 0; l_cls := 0; l_neg := [] |}));
                      final := F |}) by reflexivity.
  pose proof (run_spec E txt A NZ txt O {| reach := []; rpos := fun _ => -1; hit := false |}) as R.
  cbn [before] in R. change (Z.of_nat 0) with 0 in R. rewrite R; clear R.
  - pose proof (final_spec E txt r F M S0 Pn Ap (within_nonneg _ _ _ W ltac:(lia)) F0 NF) as Fin. cbn zeta in Fin.
    rewrite EA. cbn [final]. unfold found. split.
    + intros (k & [_ Lk] & Cu). apply Fin in Cu. destruct Cu as (i & Li & H). exists i, k. split; [lia|].
      apply Dn. apply Fd. exact H.
    + intros (i & j & [Li Lj] & H). exists j. split; [lia|]. apply Fin. exists i. split; [exact Li|].
      apply Fd. apply Dn. exact H.
  - reflexivity.
  - lia.
  - split; [|split]; cbn.
    + intros; lia.
    + intros; split; [lia|intros []].
    + split; [discriminate|intros []].
  - reflexivity.
  - intros x. cbn. split; [intros []|]. intros (i & s & L & _). lia.
Qed.
