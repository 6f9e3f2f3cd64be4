(** The operations on objects, moving and duplicating; whole histories. *)
From Coq Require Import ZArith List Bool Lia.
Import ListNotations.
From Verif Require Import Bits RefModel RefSpec RefProofs RefProofs2 RefProofs3 RefProofs4 RefProofs5.
Local Open Scope Z_scope.

Lemma state_eq s s' : cells s = cells s' -> held s = held s' -> fresh s = fresh s' -> s = s'.
Proof. destruct s, s'; cbn; congruence. Qed.
Lemma assign_comm s a b x y : (a < length (cells s))%nat -> (b < length (cells s))%nat -> a <> b ->
  assign a x (assign b y s) = assign b y (assign a x s).
Proof.
  intros A B N. apply state_eq; try reflexivity. apply nth_ext with (d := None) (d' := None).
  - rewrite !length_assign; auto; rewrite length_assign; auto.
  - intros z _. change (at_ (assign a x (assign b y s)) z = at_ (assign b y (assign a x s)) z).
    rewrite !at_assign; auto; try (rewrite length_assign; auto).
    destruct (Nat.eqb z a) eqn:Z1, (Nat.eqb z b) eqn:Z2; auto. apply Nat.eqb_eq in Z1, Z2. congruence.
Qed.
Lemma set_body_comm h a b x y : a <> b -> set_body a x (set_body b y h) = set_body b y (set_body a x h).
Proof.
  intro N. apply heap_ext; [rewrite !length_set_body; auto|]. intro z. rewrite !get_set_body.
  destruct (Nat.eqb z a) eqn:Z1, (Nat.eqb z b) eqn:Z2; auto.
  - apply Nat.eqb_eq in Z1, Z2. congruence.
  - apply Nat.eqb_neq in N. rewrite N. auto.
  - apply Nat.eqb_neq in N. rewrite Nat.eqb_sym, N. auto.
Qed.
Lemma decr_ref_frame o b x h h' : decr_ref x h = Ok h' -> alive h' o ->
  decr_ref x (set_body o b h) = Ok (set_body o b h').
Proof. unfold decr_ref. rewrite length_set_body. apply decr_frame. Qed.
Lemma rep_object h s v ps es pr w : Rep h s -> object s v ps es pr w ->
  exists n, get h v = Some (mkC n (BObject ps es pr w)) /\ 0 <= n /\ NoDup (map fst ps).
Proof.
  intros R V. unfold object in V. rewrite (at_rep h) in V by apply R. destruct (get h v) as [[n b]|] eqn:G; [|discriminate].
  cbn in V. injection V as ->. exists n. split; auto. split; [apply (r_cnt _ _ R _ _ G)|].
  apply (r_keys _ _ R v _ ps es pr w G). reflexivity.
Qed.

Section Ops.
Variable max : nat.
Notation done := (done max).

Lemma move_done h s t f : Rep h s -> allowed (Move t f) s -> done (Move t f) h s.
Proof.
  intros R ([p Vp] & [q Vq] & Kt & Kf & NS & RV).
  destruct (rep_value h s t p R Vp) as (nt & Gt & _). destruct (rep_value h s f q R Vq) as (nf & Gf & _).
  destruct (kept_pos h s _ t R Kt) as (ct & Gt' & Ct). rewrite Gt in Gt'. injection Gt' as <-. cbn [cnt] in Ct.
  destruct (Nat.eq_dec t f) as [->|N].
  { eapply done_exact.
    - cbn [perform]. unfold move, copy_move. rewrite Nat.eqb_refl. reflexivity.
    - cbn. split; [reflexivity|]. exists q. rewrite Nat.eqb_refl. split; auto.
    - exact R. }
  pose proof N as N'. apply Nat.eqb_neq in N'.
  assert (forall y, target q = Some y -> y <> t) as TN.
  { intros y T ->. apply NS. exists (BValue q). split; auto. rewrite <- refs_out, refs_target, T. cbn; auto. }
  pose proof (get_lt _ _ _ Gt) as Lt. pose proof (get_lt _ _ _ Gf) as Lf.
  pose proof (length_bodies h s (r_cells _ _ R)) as LB. rewrite <- LB in Lt, Lf.
  set (sA := assign f undefined (assign t (BValue q) s)).
  set (hA := set_body t (BValue q) (set_body f undef h)).
  (* the heap with both written, where what [t] referred to is held *)
  assert (Rep hA (mkS (cells sA) (opt_list (target p) ++ held s) (fresh s))) as RA.
  { destruct (write_rep h s f _ undef None (opt_list (target q) ++ held s) R Gf) as (h1 & E1 & R1).
    - intro y. cbn [bd]. rewrite refs_target, occ_app. cbn. lia.
    - discriminate.
    - exact I.
    - reflexivity.
    - rewrite (write_ok _ _ _ _ Gf) in E1. cbn [bind incr_opt] in E1. injection E1 as <-. cbn [settle_opt] in R1.
      assert (get (set_body f undef h) t = Some (mkC nt (BValue p))) as Gt1.
      { rewrite get_set_body, N'. auto. }
      destruct (write_rep _ _ t _ (BValue q) None (opt_list (target p) ++ held s) R1 Gt1) as (h2 & E2 & R2).
      + intro y. cbn [bd held]. rewrite !refs_target, !occ_app. cbn. lia.
      + discriminate.
      + exact I.
      + apply self_target. auto.
      + rewrite (write_ok _ _ _ _ Gt1) in E2. cbn [bind incr_opt] in E2. injection E2 as <-. fold hA in R2.
        cbn [settle_opt fresh] in R2. unfold sA. rewrite assign_comm by auto. exact R2. }
  assert (get hA t = Some (mkC nt (BValue q))) as GAt.
  { unfold hA. rewrite get_set_body, Nat.eqb_refl, get_set_body, N', Gt. reflexivity. }
  assert (get hA f = Some (mkC nf undef)) as GAf.
  { unfold hA. rewrite get_set_body, Nat.eqb_sym, N', get_set_body, Nat.eqb_refl, Gf. reflexivity. }
  assert (forall h1 a, Post hA (held s) h1 -> kept s [t; f] a -> alive h1 a) as SV.
  { intros h1 a P Ka. eapply (surv_kept h s [t; f]); [exact R| | |exact P|right; exact Ka].
    - intros w W. unfold hA. rewrite !get_set_body. destruct (Nat.eqb w t) eqn:X1; [apply Nat.eqb_eq in X1; subst; exfalso; apply W; cbn; auto|].
      destruct (Nat.eqb w f) eqn:X2; [apply Nat.eqb_eq in X2; subst; exfalso; apply W; cbn; auto|]. auto.
    - intros w c Gw. destruct (set_body_counts h f undef w c Gw) as (b1 & G1).
      destruct (set_body_counts _ t (BValue q) w _ G1) as (b2 & G2). exists b2. exact G2. }
  assert (effect max (Move t f) s ANone sA) as EF.
  { cbn. split; auto. exists q. rewrite N'. auto. }
  assert (h = set_body f (BValue q) (set_body t (BValue p) hA)) as HH.
  { unfold hA. rewrite set_body_set_body. rewrite (set_body_comm _ t f), set_body_set_body by auto.
    rewrite <- set_body_comm by auto. change (BValue q) with (bd (mkC nf (BValue q))). rewrite (set_body_same f _ h Gf).
    change (BValue p) with (bd (mkC nt (BValue p))). rewrite (set_body_same t _ h Gt). reflexivity. }
  destruct p as [m|o|x].
  - (* nothing to let go of *)
    eapply done_exact; [|exact EF|exact RA].
    cbn [perform]. unfold move, copy_move. rewrite N', Gt. cbn [cnt bd].
    replace (nt <=? 0) with false by (symmetry; apply Z.leb_gt; auto). cbn [bind].
    unfold reset. rewrite Gt. rewrite (write_ok _ _ _ _ Gt). cbn [bind].
    rewrite get_set_body, Nat.eqb_sym, N', Gf.
    assert (get (set_body t undef h) t = Some (mkC nt undef)) as G2 by (rewrite get_set_body, Nat.eqb_refl, Gt; reflexivity).
    rewrite (write_ok _ _ _ _ G2), set_body_set_body. cbn [bind].
    assert (get (set_body t (BValue q) h) f = Some (mkC nf (BValue q))) as G3 by (rewrite get_set_body, Nat.eqb_sym, N'; auto).
    rewrite (write_ok _ _ _ _ G3). unfold plainly. cbn [bind]. unfold hA. rewrite set_body_comm by auto. reflexivity.
  - (* an object *)
    destruct (decr_finish hA o sA RA) as (h1 & s' & E1 & P & SW & R1).
    exists h1, ANone, sA, s'. split; [|split; auto].
    destruct (SV h1 t P Kt) as (c1 & G1t & C1). destruct (SV h1 f P Kf) as (c2 & G1f & C2).
    assert (bd c1 = BValue q) as B1.
    { destruct (p_body _ _ _ P t c1 G1t) as (c0 & G0 & B0 & _). rewrite GAt in G0. injection G0 as <-. exact B0. }
    assert (bd c2 = undef) as B2.
    { destruct (p_body _ _ _ P f c2 G1f) as (c0 & G0 & B0 & _). rewrite GAf in G0. injection G0 as <-. exact B0. }
    pose proof (decr_ref_frame t (BValue (PObject o)) o hA h1 E1 (ex_intro _ c1 (conj G1t C1))) as F1.
    apply (decr_ref_frame f (BValue q)) in F1; [|exists c2; split; auto; rewrite get_set_body, Nat.eqb_sym, N'; auto].
    rewrite <- HH in F1.
    cbn [perform]. unfold move, copy_move. rewrite N', Gt. cbn [cnt bd].
    replace (nt <=? 0) with false by (symmetry; apply Z.leb_gt; auto). cbn [bind].
    unfold reset. rewrite Gt, F1. cbn [bind].
    set (h2 := set_body f (BValue q) (set_body t (BValue (PObject o)) h1)).
    assert (get h2 t = Some (mkC (cnt c1) (BValue (PObject o)))) as G2t.
    { unfold h2. rewrite get_set_body, N', get_set_body, Nat.eqb_refl, G1t. reflexivity. }
    assert (get h2 f = Some (mkC (cnt c2) (BValue q))) as G2f.
    { unfold h2. rewrite get_set_body, Nat.eqb_refl, get_set_body, Nat.eqb_sym, N', G1f. reflexivity. }
    rewrite (write_ok _ _ _ _ G2t). cbn [bind]. rewrite get_set_body, Nat.eqb_sym, N', G2f.
    assert (get (set_body t undef h2) t = Some (mkC (cnt c1) undef)) as G3 by (rewrite get_set_body, Nat.eqb_refl, G2t; reflexivity).
    rewrite (write_ok _ _ _ _ G3), set_body_set_body. cbn [bind].
    assert (get (set_body t (BValue q) h2) f = Some (mkC (cnt c2) (BValue q))) as G4 by (rewrite get_set_body, Nat.eqb_sym, N'; auto).
    rewrite (write_ok _ _ _ _ G4). unfold plainly. cbn [bind]. do 3 f_equal.
    unfold h2. rewrite (set_body_comm _ t f), set_body_set_body by auto. rewrite set_body_set_body.
    rewrite <- B1, (set_body_same t c1 h1 G1t), <- B2. apply (set_body_same f c2 h1 G1f).
  - (* a variable *)
    destruct (decr_finish hA x sA RA) as (h1 & s' & E1 & P & SW & R1).
    exists h1, ANone, sA, s'. split; [|split; auto].
    destruct (SV h1 f P Kf) as (c2 & G1f & C2).
    assert (bd c2 = undef) as B2.
    { destruct (p_body _ _ _ P f c2 G1f) as (c0 & G0 & B0 & _). rewrite GAf in G0. injection G0 as <-. exact B0. }
    pose proof (decr_ref_frame f (BValue q) x hA h1 E1 (ex_intro _ c2 (conj G1f C2))) as F1.
    assert (set_body f (BValue q) hA = set_body t (BValue q) h) as HF.
    { unfold hA. rewrite (set_body_comm _ t f), set_body_set_body by auto. rewrite <- set_body_comm by auto.
      change (BValue q) with (bd (mkC nf (BValue q))) at 2. rewrite (set_body_same f _ h Gf). reflexivity. }
    rewrite HF in F1.
    assert (x <> t) as PN.
    { intros ->. pose proof (r_self _ _ R _ _ Gt) as S. cbn in S. rewrite Nat.eqb_refl in S. discriminate. }
    pose proof (incr_reset h s t nt x R Gt PN (RV x Vp)) as IR.
    cbn [perform]. unfold move, copy_move. rewrite N', Gt. cbn [cnt bd].
    replace (nt <=? 0) with false by (symmetry; apply Z.leb_gt; auto).
    destruct (incr x h) as [hi| |]; cbn [bind] in IR; try discriminate. cbn [bind]. rewrite IR. cbn [bind].
    rewrite get_set_body, Nat.eqb_sym, N', Gf.
    assert (get (set_body t undef h) t = Some (mkC nt undef)) as G2 by (rewrite get_set_body, Nat.eqb_refl, Gt; reflexivity).
    rewrite (write_ok _ _ _ _ G2), set_body_set_body. cbn [bind]. rewrite F1. cbn [bind].
    assert (get (set_body f (BValue q) h1) f = Some (mkC (cnt c2) (BValue q))) as G4 by (rewrite get_set_body, Nat.eqb_refl, G1f; reflexivity).
    rewrite (write_ok _ _ _ _ G4), set_body_set_body. unfold plainly. cbn [bind]. do 3 f_equal.
    rewrite <- B2. apply (set_body_same f c2 h1 G1f).
Qed.

(** *** Duplicating *)
Lemma reachable_mono s s' a : (forall x, owns s x -> owns s' x) -> (forall b x, refers s b x -> refers s' b x) ->
  reachable s a -> reachable s' a.
Proof.
  intros O E. revert a. fix IH 2. intros a K. destruct K as [a I|b a D I]; [apply reach_own; auto|].
  apply reach_ref with b; auto.
Qed.
Lemma at_add s b a : at_ (add b s) a = if Nat.eqb a (next s) then Some b else at_ s a.
Proof.
  unfold at_, add, next. cbn [cells]. destruct (Nat.eqb a (length (cells s))) eqn:X.
  - apply Nat.eqb_eq in X. subst. rewrite app_nth2, Nat.sub_diag by lia. reflexivity.
  - apply Nat.eqb_neq in X. destruct (Nat.lt_ge_cases a (length (cells s))); [apply app_nth1; auto|].
    rewrite !nth_overflow by (rewrite ?app_length; cbn; lia). reflexivity.
Qed.
Lemma refers_lt s b a : refers s b a -> (b < length (cells s))%nat.
Proof.
  intros (x & H & _). unfold at_ in H. destruct (Nat.lt_ge_cases b (length (cells s))); auto.
  rewrite nth_overflow in H by lia. discriminate.
Qed.
Lemma dup_rep h s v p : Rep h s -> reachable s v -> ~ In v (fresh s) -> value_of s v p -> payload_room s p ->
  exists h', dup v h = Ok (h', next s) /\ Rep h' (hold (next s) (add (BValue p) s)).
Proof.
  intros R A NF V PR. destruct (rep_value h s v p R V) as (n & G & Cn).
  assert (next s = length h) as NX by (apply length_bodies, R).
  pose proof (new_rep h s undef true R eq_refl I) as R1. cbn [negb] in R1.
  set (h1 := h ++ [Some (mkC 1 undef)]) in *. set (s1 := hold (next s) (add undef s)) in *.
  pose proof (get_lt _ _ _ G) as L.
  assert (v <> length h) as NV by lia. pose proof NV as NV'. apply Nat.eqb_neq in NV'.
  assert (get h1 v = Some (mkC n (BValue p))) as G1 by (unfold h1; rewrite get_app, NV'; auto).
  assert (get h1 (length h) = Some (mkC 1 undef)) as G2 by (unfold h1; rewrite get_app, Nat.eqb_refl; auto).
  assert (forall b x, refers s b x -> refers s1 b x) as RM.
  { intros b x F. pose proof (refers_lt s b x F) as Lb. destruct F as (y & Hy & Iy). exists y. split; auto.
    change (at_ s1 b) with (at_ (add undef s) b). rewrite at_add. unfold next. destruct (Nat.eqb b (length (cells s))) eqn:X; auto.
    apply Nat.eqb_eq in X. lia. }
  assert (forall x, target p = Some x -> refers s v x) as RT.
  { intros x T. exists (BValue p). split; auto. rewrite <- refs_out, refs_target, T. cbn; auto. }
  destruct (write_rep h1 s1 (length h) _ (BValue p) (target p) (held s1) R1 G2) as (h2 & E2 & R2).
  - intro y. rewrite refs_target. cbn. lia.
  - intros x T. split.
    + apply reachable_mono with s; auto.
      * intros z [Z|Z]; [left; cbn; auto|right; auto].
      * apply reach_ref with v; auto.
    + assert (room s x) as Ro by (apply PR; rewrite <- refs_out, refs_target, T; cbn; auto).
      destruct (rep_live h s x R (reach_ref s v x A (RT x T))) as (cx & Gx).
      assert (x <> length h) as NX' by (pose proof (get_lt _ _ _ Gx); lia). apply Nat.eqb_neq in NX'.
      assert (get h1 x = Some cx) as Gx1 by (unfold h1; rewrite get_app, NX'; auto).
      unfold room in *. rewrite (rep_holders _ _ _ _ R Gx) in Ro. rewrite (rep_holders _ _ _ _ R1 Gx1). auto.
  - exact I.
  - apply self_target. intros x T ->. destruct (rep_live h s _ R (reach_ref s v _ A (RT _ T))) as (cx & Gx).
    rewrite get_beyond in Gx by lia. discriminate.
  - exists h2. rewrite (write_ok _ _ _ _ G2) in E2. cbn [bind] in E2. split.
    + unfold dup. cbn [new_cell]. fold h1. unfold copy, copy_move. rewrite Nat.eqb_sym, NV', G2. cbn [cnt bd].
      replace (1 <=? 0) with false by reflexivity. cbn [bind undef].
      unfold reset. rewrite G2. cbn [undef]. rewrite (write_ok _ _ _ _ G2). cbn [bind].
      rewrite get_set_body, NV', G1.
      assert (get (set_body (length h) undef h1) (length h) = Some (mkC 1 undef)) as G3 by (rewrite get_set_body, Nat.eqb_refl, G2; reflexivity).
      rewrite (write_ok _ _ _ _ G3), set_body_set_body. cbn [bind].
      assert (n <> 0) as N0.
      { intro Z. subst n. apply NF. apply (r_cnt _ _ R v _ G). reflexivity. }
      replace (n =? 0) with false by (symmetry; apply Z.eqb_neq; auto).
      rewrite incr_payload_eq, E2. cbn [bind]. rewrite NX. reflexivity.
    + assert (settle_opt (target p) (mkS (cells (assign (length h) (BValue p) s1)) (held s1) (fresh s1)) = hold (next s) (add (BValue p) s)) as <-; auto.
      assert (cells (assign (length h) (BValue p) s1) = cells s ++ [Some (BValue p)]) as CE.
      { unfold assign, s1. cbn [cells hold add]. rewrite <- NX. unfold next.
        rewrite firstn_app, firstn_all, Nat.sub_diag, skipn_all2 by (rewrite app_length; cbn; lia).
        cbn [firstn]. rewrite app_nil_r. reflexivity. }
      destruct (target p) as [x|] eqn:T; cbn [settle_opt].
      * rewrite fresh_settle_id; [apply state_eq; cbn [cells held fresh hold add s1]; auto|].
        cbn [fresh s1 hold add]. apply (not_fresh h s v x _ R G). cbn [bd]. rewrite refs_target, T. cbn; auto.
      * apply state_eq; cbn [cells held fresh hold add s1]; auto.
Qed.
Lemma dup_done h s v : Rep h s -> allowed (Dup v) s -> done (Dup v) h s.
Proof.
  intros R (A & NF & p & V & PR). destruct (dup_rep h s v p R A NF V PR) as (h' & E & R').
  eapply done_exact; [|  |exact R'].
  - cbn [perform]. rewrite E. reflexivity.
  - cbn. split; auto. exists p. auto.
Qed.

(** *** Objects *)
Lemma rep_object_of h s o : Rep h s -> is_object s o ->
  exists ps es pr w n, object s o ps es pr w /\ get h o = Some (mkC n (BObject ps es pr w)) /\ 0 <= n /\ NoDup (map fst ps).
Proof.
  intros R (ps & es & pr & w & O). destruct (rep_object h s o ps es pr w R O) as (n & G & C & K).
  exists ps, es, pr, w, n. auto.
Qed.
Lemma occ_refs_obj y ps es pr w : occ y (refs (BObject ps es pr w)) =
  (occ y (map snd ps) + occ y (flat_map opt_list es) + occ y (if w then opt_list pr else []))%nat.
Proof. unfold refs. rewrite !occ_app. lia. Qed.
Lemma replace_end {A} (l : list A) (x y : A) : replace (l ++ [x]) (length l) y = l ++ [y].
Proof. induction l; cbn; congruence. Qed.
Lemma too_big_bound n : too_big max n = true -> (max <= n + 16)%nat.
Proof.
  unfold too_big. intro H. apply orb_prop in H. destruct H as [H|H]; b2p; [apply Nat.leb_le in H|apply Nat.ltb_lt in H]; lia.
Qed.
Lemma array_add_done h s o v : Rep h s -> allowed (ArrayAdd o v) s -> done (ArrayAdd o v) h s.
Proof.
  intros R (IO & Ao & Av & Ro). destruct (rep_object_of h s o R IO) as (ps & es & pr & w & n & O & G & C & K).
  destruct (too_big max (length es + 1)) eqn:TB.
  - eapply done_exact; [|  |exact R].
    + cbn [perform]. unfold array_add. rewrite G, TB. reflexivity.
    + cbn. exists ps, es, pr, w. split; auto. right. apply too_big_bound in TB. repeat split; auto. lia.
  - assert (sized (length es + 1) es = es ++ [None]) as SZ.
    { unfold sized. replace (length es + 1 - length es)%nat with 1%nat by lia. reflexivity. }
    destruct (write_rep h s o _ (BObject ps (es ++ [Some v]) pr w) (Some v) (held s) R G) as (h' & E & R').
    + intro y. cbn [bd]. rewrite !occ_refs_obj, flat_map_app, occ_app. cbn. lia.
    + intros x [= <-]. auto.
    + exact K.
    + reflexivity.
    + eapply done_exact; [|  |exact R'].
      * cbn [perform]. unfold array_add. rewrite G, TB, SZ. rewrite (write_ok _ _ _ _ G). cbn [bind]. rewrite replace_end.
        assert (get (set_body o (BObject ps (es ++ [None]) pr w) h) o = Some (mkC n (BObject ps (es ++ [None]) pr w))) as G2 by (rewrite get_set_body, Nat.eqb_refl, G; reflexivity).
        rewrite (write_ok _ _ _ _ G2), set_body_set_body. cbn [bind]. rewrite (write_ok _ _ _ _ G) in E. cbn [bind incr_opt] in E.
        rewrite E. reflexivity.
      * cbn. exists ps, es, pr, w. split; auto.
Qed.

Lemma replace_same {A} (l : list A) n x d : nth n l d = x -> (n < length l)%nat -> replace l n x = l.
Proof.
  revert n. induction l as [|y l IH]; intros [|n] X L; cbn in *; try lia; [congruence|]. f_equal. apply IH; auto. lia.
Qed.
Lemma length_sized n es : length (sized n es) = Nat.max (length es) n.
Proof. unfold sized. rewrite app_length, repeat_length. lia. Qed.
Lemma nth_sized n es m : nth m (sized n es) None = nth m es None.
Proof.
  unfold sized. destruct (Nat.lt_ge_cases m (length es)); [apply app_nth1; auto|].
  rewrite app_nth2, nth_repeat, nth_overflow by lia. reflexivity.
Qed.
Lemma nth_replace {A} (l : list A) n x m d : (n < length l)%nat -> nth m (replace l n x) d = if Nat.eqb m n then x else nth m l d.
Proof.
  revert n m. induction l as [|y l IH]; intros n m L; [cbn in L; lia|]. destruct n, m; cbn; auto. apply IH. cbn in L. lia.
Qed.
Lemma length_replace {A} (l : list A) n x : length (replace l n x) = length l.
Proof. revert n. induction l; intros [|n]; cbn; auto. Qed.
Lemma occ_sized y n es : occ y (flat_map opt_list (sized n es)) = occ y (flat_map opt_list es).
Proof.
  unfold sized. rewrite flat_map_app, occ_app. replace (flat_map opt_list (repeat None (n - length es))) with (@nil nat); [cbn; lia|].
  induction (n - length es)%nat; cbn; auto.
Qed.
Lemma occ_replace y es n x : (n < length es)%nat ->
  (occ y (flat_map opt_list (replace es n x)) + occ y (opt_list (nth n es None)) = occ y (flat_map opt_list es) + occ y (opt_list x))%nat.
Proof.
  revert n. induction es as [|e es IH]; intros n L; [cbn in L; lia|]. destruct n as [|n]; cbn [replace flat_map nth]; rewrite !occ_app; [lia|].
  cbn in L. specialize (IH n ltac:(lia)). lia.
Qed.
Lemma with_element_replace n v es : with_element n v es (replace (sized (n + 1) es) n (Some v)).
Proof.
  unfold with_element. rewrite length_replace, length_sized. split; [lia|].
  assert (n < length (sized (n + 1) es))%nat as L by (rewrite length_sized; lia). split.
  - rewrite nth_replace, Nat.eqb_refl by auto. auto.
  - intros m N. rewrite nth_replace by auto. apply Nat.eqb_neq in N. rewrite N. apply nth_sized.
Qed.
Lemma refers_assign s o b w y : ~ In w [o] -> refers s w y -> (o < length (cells s))%nat -> refers (assign o b s) w y.
Proof.
  intros N (x & H & I) L. exists x. split; auto. rewrite at_assign by auto. destruct (Nat.eqb w o) eqn:X; auto.
  apply Nat.eqb_eq in X. subst. exfalso. apply N. cbn; auto.
Qed.
Lemma kept_assign s o b a : (o < length (cells s))%nat -> kept_or_fresh s [o] a -> kept_or_fresh (assign o b s) [o] a.
Proof.
  intros L [F|K]; [left; auto|right]. eapply kept_mono; [| | | |exact K]; auto.
  intros w W y E. apply refers_assign; auto.
Qed.
(** Replacing a reference of an object by another *)
Lemma object_core h s o c b0 b2 x v : Rep h s -> get h o = Some c ->
  (forall y, occ y (refs (bd c)) = occ y (x :: refs b0)) ->
  (forall y, occ y (refs b2) = occ y (v :: refs b0)) ->
  kept_or_fresh s [o] o -> kept_or_fresh s [o] v -> room s v -> keys_ok b2 -> self_ref o b2 = false ->
  exists h' s', (h1 <- decr_ref x h ;; h2 <- write o b2 h1 ;; incr v h2) = Ok h' /\
    swept (settle v (assign o b2 s)) s' /\ Rep h' s'.
Proof.
  intros R G E0 E2 Ko Kv Ro K S.
  assert (forall a h1, kept_or_fresh s [o] a -> Post (set_body o b0 h) (held s) h1 -> alive h1 a) as SV.
  { intros a h1 Ka P. eapply surv_kept; [exact R| | |exact P|exact Ka].
    - apply set_body_others.
    - apply set_body_counts. }
  apply (core h s o c b0 b2 (Some x) (Some v) None R G); auto.
  intros y [= <-]. split; auto.
Qed.
Lemma room_same h s h' s' a : Rep h s -> Rep h' s' -> room s a -> (forall c, get h a = Some c -> exists b, get h' a = Some (mkC (cnt c) b)) ->
  (exists c, get h a = Some c) -> room s' a.
Proof.
  intros R R' Ro B (c & G). destruct (B c G) as (b & G'). unfold room in *. rewrite (rep_holders _ _ _ _ R G) in Ro.
  rewrite (rep_holders _ _ _ _ R' G'). auto.
Qed.
Lemma kept_or_fresh_reachable s ts a : kept_or_fresh s ts a -> reachable s a.
Proof. intros [F|K]; [apply reach_own; right; auto|eapply kept_reachable; eauto]. Qed.
Lemma array_set_done h s o v n : Rep h s -> allowed (ArraySet o v n) s -> done (ArraySet o v n) h s.
Proof.
  intros R (IO & Ko & Kv & Ro). destruct (rep_object_of h s o R IO) as (ps & es & pr & w & m & O & G & C & K).
  destruct (too_big max (n + 1)) eqn:TB.
  - eapply done_exact; [|  |exact R].
    + cbn [perform]. unfold array_set. rewrite G, TB. reflexivity.
    + cbn. exists ps, es, pr, w. split; auto. right. apply too_big_bound in TB. repeat split; auto. lia.
  - pose proof (get_lt _ _ _ G) as Lo. rewrite <- (length_bodies h s) in Lo by apply R.
    set (es1 := sized (n + 1) es). set (b1 := BObject ps es1 pr w).
    destruct (write_rep h s o _ b1 None (held s) R G) as (h1 & E1 & R1).
    { intro y. cbn [bd]. unfold b1, es1. rewrite !occ_refs_obj, occ_sized. cbn. lia. }
    { discriminate. }
    { exact K. }
    { reflexivity. }
    rewrite (write_ok _ _ _ _ G) in E1. cbn [bind incr_opt] in E1. injection E1 as E1. cbn [settle_opt] in R1.
    change (Rep h1 (assign o b1 s)) in R1.
    assert (get h1 o = Some (mkC m b1)) as G1 by (rewrite <- E1, get_set_body, Nat.eqb_refl, G; reflexivity).
    assert (n < length es1)%nat as Ln by (unfold es1; rewrite length_sized; lia).
    set (es2 := replace es1 n (Some v)). set (b2 := BObject ps es2 pr w).
    assert (effect max (ArraySet o v n) s (ABool true) (settle v (assign o b2 s))) as EF.
    { cbn. exists ps, es, pr, w. split; auto. left. split; auto. exists es2. split; auto. apply with_element_replace. }
    assert (perform max (ArraySet o v n) h =
      (match nth n es1 None with
        | Some x =>
            if Nat.eqb x v then Ok (h1, ABool true)
            else p <- (h <- decr_ref x h1 ;; h <- write o b2 h ;; h <- incr v h ;; Ok (h, true)) ;; Ok (flag p)
        | None => p <- (h <- write o b2 h1 ;; h <- incr v h ;; Ok (h, true)) ;; Ok (flag p)
        end)) as PE.
    { cbn [perform]. unfold array_set. rewrite G, TB. fold es1 b1. rewrite (write_ok _ _ _ _ G), E1. cbn [bind].
      fold es2 b2. destruct (nth n es1 None) as [x|]; [|reflexivity]. destruct (Nat.eqb x v); reflexivity. }
    destruct (nth n es1 None) as [x|] eqn:X.
    + destruct (Nat.eqb x v) eqn:XV.
      * apply Nat.eqb_eq in XV. subst x. eapply done_exact; [exact PE|exact EF|].
        assert (es2 = es1) as ES.
        { unfold es2. apply (replace_same es1 n (Some v) None); auto. }
        unfold b2. rewrite ES. fold b1. rewrite fresh_settle_id; auto. cbn [fresh assign].
        change (fresh s) with (fresh (assign o b1 s)). apply (not_fresh h1 (assign o b1 s) o v _ R1 G1).
        cbn [bd]. apply occ_in. unfold b1. rewrite occ_refs_obj.
        pose proof (occ_replace v es1 n None Ln) as Q. rewrite X in Q. cbn [opt_list] in Q. rewrite occ_cons in Q.
        destruct (Nat.eq_dec v v); [|congruence]. cbn in Q. lia.
      * destruct (object_core h1 (assign o b1 s) o _ (BObject ps (replace es1 n None) pr w) b2 x v R1 G1) as (h' & s' & E & SW & R').
        -- intro y. cbn [bd]. unfold b1. rewrite occ_cons, !occ_refs_obj. pose proof (occ_replace y es1 n None Ln) as Q.
           rewrite X in Q. cbn [opt_list] in Q. rewrite occ_cons in Q. cbn in Q. destruct (Nat.eq_dec x y); lia.
        -- intro y. unfold b2, es2. rewrite occ_cons, !occ_refs_obj. pose proof (occ_replace y es1 n None Ln) as Q.
           pose proof (occ_replace y es1 n (Some v) Ln) as Q2. cbn [opt_list] in Q2. rewrite (occ_cons y v) in Q2. cbn in Q, Q2. lia.
        -- apply kept_assign; auto.
        -- apply kept_assign; auto.
        -- eapply room_same; [exact R|exact R1|exact Ro| |].
           ++ rewrite <- E1. apply set_body_counts.
           ++ apply (rep_live h s); auto. eapply kept_or_fresh_reachable; eauto.
        -- exact K.
        -- reflexivity.
        -- exists h', (ABool true), (settle v (assign o b2 s)), s'.
           split; [|split; [exact EF|rewrite assign_assign in SW by auto; auto]].
           rewrite PE. destruct (decr_ref x h1) as [h2| |]; cbn [bind] in *; try discriminate.
           destruct (write o b2 h2) as [h3| |]; cbn [bind] in *; try discriminate. rewrite E. reflexivity.
    + destruct (write_rep h1 (assign o b1 s) o _ b2 (Some v) (held s) R1 G1) as (h' & E & R').
      * intro y. cbn [bd held assign]. unfold b1, b2, es2. rewrite !occ_refs_obj. pose proof (occ_replace y es1 n (Some v) Ln) as Q.
        rewrite X in Q. cbn [opt_list] in *. cbn in Q |- *. lia.
      * intros x [= <-]. split.
        -- eapply kept_or_fresh_reachable. apply kept_assign; eauto.
        -- eapply room_same; [exact R|exact R1|exact Ro| |].
           ++ rewrite <- E1. apply set_body_counts.
           ++ apply (rep_live h s); auto. eapply kept_or_fresh_reachable; eauto.
      * exact K.
      * reflexivity.
      * eapply done_exact; [|exact EF|].
        -- rewrite PE. destruct (write o b2 h1) as [h3| |]; cbn [bind incr_opt] in *; try discriminate. rewrite E. reflexivity.
        -- rewrite <- (assign_assign s o b2 b1) by auto. exact R'.
Qed.
End Ops.
