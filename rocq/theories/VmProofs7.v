(** * The late semantics of expressions agrees with the standard one for well-behaved expressions. *)
Require Import ZArith List Bool Lia.
From Verif Require Import VmModel VmSpec VmProofs.
Import ListNotations.

Section Sync.
Context {VS : vsys}.
Notation V := (val VS).
Notation st := (@state VS).
Notation env := (@env VS).

Definition named (D : list nat) (cs : list (nat * V)) : Prop :=
  map fst cs = D /\ Forall (fun p => isundef VS (snd p) = false) cs.
Definition rel (D : list nat) (E : env) (s : st) : Prop :=
  (forall x, glob s x = globals E x) /\ rev (frames s) = catches E /\ named D (catches E).

(** ** Variables *)
Lemma find_frame_app : forall x fs y (v : V) i best,
  find_frame x i (fs ++ [(y, v)]) best = if Nat.eqb x y then Some (i + length fs)%nat else find_frame x i fs best.
Proof.
  induction fs as [ | [z w] fs IH]; intros y v i best; cbn [app find_frame length].
  - rewrite Nat.add_0_r. reflexivity.
  - rewrite IH. destruct (Nat.eqb x y); [f_equal; lia | reflexivity].
Qed.

Lemma find_frame_lt : forall x (fs : list (nat * V)) i, find_frame x 0 fs None = Some i -> (i < length fs)%nat.
Proof.
  intros x fs. induction fs as [ | [y v] fs IH] using rev_ind; intros i H; [discriminate | ].
  rewrite find_frame_app in H. rewrite app_length. cbn [length]. destruct (Nat.eqb x y).
  - injection H as <-. lia.
  - specialize (IH _ H). lia.
Qed.

Definition fnd (fs : list (nat * V)) (x : nat) : option nat := find_frame x 0 fs None.

(* reading in a list of scopes *)
Lemma read_frames : forall x (g : nat -> V) fs,
  match fnd fs x with
  | Some i => match nth_error fs i with Some (_, v) => v | None => vundef VS end
  | None => g x
  end = get_in (rev fs) g x.
Proof.
  intros x g fs. induction fs as [ | [y v] fs IH] using rev_ind; [reflexivity | ].
  rewrite rev_unit. cbn [get_in]. unfold fnd in *. rewrite find_frame_app. cbn [plus]. destruct (Nat.eqb x y).
  - rewrite nth_error_app2 by lia. rewrite Nat.sub_diag. reflexivity.
  - rewrite <- IH. destruct (find_frame x 0 fs None) as [i | ] eqn:E; [ | reflexivity].
    apply find_frame_lt in E. rewrite nth_error_app1 by exact E. reflexivity.
Qed.

Lemma upd_frame_app1 : forall (fs : list (nat * V)) f i v, (i < length fs)%nat -> upd_frame (fs ++ [f]) i v = upd_frame fs i v ++ [f].
Proof.
  induction fs as [ | [y w] fs IH]; intros f i v H; cbn [length] in H; [lia | ]. destruct i; cbn [app upd_frame]; [reflexivity | ].
  rewrite IH by lia. reflexivity.
Qed.
Lemma upd_frame_last : forall (fs : list (nat * V)) y w v, upd_frame (fs ++ [(y, w)]) (length fs) v = fs ++ [(y, v)].
Proof. induction fs as [ | [y w] fs IH]; intros; cbn [app upd_frame length]; [reflexivity | rewrite IH; reflexivity]. Qed.

Lemma write_frames : forall x v (g : nat -> V) fs,
  match fnd fs x with
  | Some i => set_in (rev fs) g x v = mkenv g (rev (upd_frame fs i v))
  | None => set_in (rev fs) g x v = mkenv (fun y => if Nat.eqb x y then v else g y) (rev fs)
  end.
Proof.
  intros x v g fs. induction fs as [ | [y w] fs IH] using rev_ind; [reflexivity | ].
  rewrite rev_unit. cbn [set_in]. unfold fnd in *. rewrite find_frame_app. cbn [plus]. destruct (Nat.eqb x y).
  - rewrite upd_frame_last, rev_unit. reflexivity.
  - destruct (find_frame x 0 fs None) as [i | ] eqn:E.
    + rewrite IH. cbn [globals catches]. apply find_frame_lt in E. rewrite upd_frame_app1 by exact E. rewrite rev_unit. reflexivity.
    + rewrite IH. reflexivity.
Qed.

Lemma get_ext : forall cs (g h : nat -> V) x, (forall y, g y = h y) -> get_in cs g x = get_in cs h x.
Proof. induction cs as [ | [y v] cs IH]; intros; cbn [get_in]; [auto | ]. destruct (Nat.eqb x y); auto. Qed.

Lemma rd_get : forall D E s x, rel D E s -> rdloc s (resolve s x) = get E x.
Proof.
  intros D E s x (HG & HF & HN). unfold get. rewrite <- HF, <- (get_ext _ _ _ x HG), <- read_frames.
  unfold resolve, fnd. destruct (find_frame x 0 (frames s) None); reflexivity.
Qed.

Lemma set_names : forall cs (g : nat -> V) x v, map fst (catches (set_in cs g x v)) = map fst cs.
Proof.
  induction cs as [ | [y w] cs IH]; intros; cbn [set_in]; [reflexivity | ].
  destruct (Nat.eqb x y); cbn [catches map fst]; [reflexivity | ]. rewrite IH. reflexivity.
Qed.
Lemma set_defined : forall cs (g : nat -> V) x v,
  Forall (fun p => isundef VS (snd p) = false) cs -> (mem x (map fst cs) = true -> isundef VS v = false) ->
  Forall (fun p => isundef VS (snd p) = false) (catches (set_in cs g x v)).
Proof.
  induction cs as [ | [y w] cs IH]; intros g x v H Hv; cbn [set_in]; [constructor | ].
  inversion H as [ | ? ? H1 H2]; subst. cbn [map fst existsb] in Hv. destruct (Nat.eqb x y); cbn [catches].
  - constructor; [cbn [snd]; apply Hv; reflexivity | exact H2].
  - constructor; [exact H1 | ]. apply IH; [exact H2 | exact Hv].
Qed.
Lemma set_glob : forall cs (g h : nat -> V) x v, (forall y, g y = h y) ->
  (forall y, globals (set_in cs g x v) y = globals (set_in cs h x v) y) /\ catches (set_in cs g x v) = catches (set_in cs h x v).
Proof.
  induction cs as [ | [y w] cs IH]; intros g h x v H; cbn [set_in].
  - split; [ | reflexivity]. intros y. cbn [globals]. rewrite H. reflexivity.
  - destruct (Nat.eqb x y); cbn [globals catches]; [auto | ]. destruct (IH g h x v H) as [H1 H2]. rewrite H2. auto.
Qed.

Lemma wr_set : forall D E s x v, rel D E s -> (mem x D = true -> isundef VS v = false) ->
  rel D (set E x v) (wrloc s (resolve s x) v).
Proof.
  intros D E s x v (HG & HF & HN & HD) Hv. unfold set. rewrite <- HF.
  assert (NM : map fst (catches (set_in (rev (frames s)) (globals E) x v)) = D) by (rewrite set_names, HF; exact HN).
  assert (DF : Forall (fun p => isundef VS (snd p) = false) (catches (set_in (rev (frames s)) (globals E) x v))).
  { apply set_defined; [rewrite HF; exact HD | rewrite HF, HN; exact Hv]. }
  destruct (set_glob (rev (frames s)) (glob s) (globals E) x v HG) as [SG SC].
  pose proof (write_frames x v (glob s) (frames s)) as W. unfold resolve, fnd in *.
  destruct (find_frame x 0 (frames s) None) as [i | ]; rewrite W in SG, SC; cbn [globals catches] in SG, SC.
  - split; [ | split; [ | split; assumption]]; cbn [wrloc glob frames]; [intros y; rewrite SG; reflexivity | exact SC].
  - split; [ | split; [ | split; assumption]]; cbn [wrloc glob frames]; [ | exact SC].
    intros y. rewrite <- SG. unfold upd. reflexivity.
Qed.

Lemma get_set_same : forall cs (g : nat -> V) x v, get_in (catches (set_in cs g x v)) (globals (set_in cs g x v)) x = v.
Proof.
  induction cs as [ | [y w] cs IH]; intros; cbn [set_in].
  - cbn [get_in catches globals]. rewrite Nat.eqb_refl. reflexivity.
  - destruct (Nat.eqb x y) eqn:E; cbn [catches globals get_in]; rewrite E; auto.
Qed.
Lemma get_set_other : forall cs (g : nat -> V) x v z, x <> z ->
  get_in (catches (set_in cs g x v)) (globals (set_in cs g x v)) z = get_in cs g z.
Proof.
  induction cs as [ | [y w] cs IH]; intros g x v z H; cbn [set_in].
  - cbn [get_in catches globals]. destruct (Nat.eqb x z) eqn:E; [apply Nat.eqb_eq in E; contradiction | reflexivity].
  - destruct (Nat.eqb x y) eqn:E; cbn [catches globals get_in]; [ | rewrite IH by exact H; reflexivity].
    apply Nat.eqb_eq in E. subst y. destruct (Nat.eqb z x) eqn:E2; [apply Nat.eqb_eq in E2; congruence | reflexivity].
Qed.

Lemma get_def : forall D E s x, rel D E s -> mem x D = true -> isundef VS (get E x) = false.
Proof.
  intros D E s x (HG & HF & HN & HD) H. rewrite <- HN in H. unfold get. clear HF HN HG.
  induction (catches E) as [ | [y w] cs IH]; cbn [map fst existsb get_in] in *; [discriminate | ].
  inversion HD as [ | ? ? H1 H2]; subst. destruct (Nat.eqb x y); [exact H1 | ]. apply IH; assumption.
Qed.

(* the location of a variable depends only on the names of the scopes *)
Lemma find_names : forall x (f1 f2 : list (nat * V)) i b, map fst f1 = map fst f2 -> find_frame x i f1 b = find_frame x i f2 b.
Proof.
  induction f1 as [ | [y v] f1 IH]; intros [ | [z w] f2] i b H; cbn [map fst] in H; try discriminate; [reflexivity | ].
  injection H as -> H. cbn [find_frame]. apply IH. exact H.
Qed.
Lemma resolve_rel : forall D E s E' s' x, rel D E s -> rel D E' s' -> resolve s' x = resolve s x.
Proof.
  intros D E s E' s' x (_ & HF & HN & _) (_ & HF' & HN' & _). unfold resolve.
  rewrite (find_names x (frames s') (frames s)); [reflexivity | ].
  rewrite <- (rev_involutive (frames s')), <- (rev_involutive (frames s)), HF, HF'. rewrite !map_rev, HN, HN'. reflexivity.
Qed.

(** ** Expressions *)
(* the variables not assigned keep their value *)
Lemma eval_frame : forall (e : @expr VS) (E : env) z, ~ In z (assigns e) ->
  match eval e E with inl (_, E') | inr (_, E') => get E' z = get E z end.
Proof.
  induction e; intros E z H; cbn [assigns eval] in *; try reflexivity.
  - specialize (IHe E z). unfold bindr. destruct (eval e E) as [[v E'] | [m E']]; [ | apply IHe; intuition].
    unfold get, set. rewrite get_set_other by (intros ->; apply H; left; reflexivity). apply IHe. intuition.
  - specialize (IHe E z). unfold bindr, ofop. destruct (eval e E) as [[v E'] | [m E']]; [ | apply IHe; intuition].
    destruct (binop VS o (get E x) v); [ | apply IHe; intuition].
    unfold get, set. rewrite get_set_other by (intros ->; apply H; left; reflexivity). apply IHe. intuition.
  - assert (G : get (set E x (step1 VS inc (tonum VS (get E x)))) z = get E z).
    { unfold get, set. rewrite get_set_other; [reflexivity | ]. intros ->. apply H. left. reflexivity. }
    destruct (numerr VS (tonum VS (get E x))); exact G.
  - specialize (IHe E z H). unfold bindr, ofop. destruct (eval e E) as [[v E'] | [m E']]; [ | exact IHe].
    destruct (unop VS u v); exact IHe.
  - specialize (IHe1 E z). unfold bindr, ofop. destruct (eval e1 E) as [[v E'] | [m E']]; [ | apply IHe1; intros HI; apply H; apply in_or_app; auto].
    specialize (IHe2 E' z). destruct (eval e2 E') as [[w E''] | [m E'']].
    + destruct (binop VS o v w); rewrite IHe2, IHe1; auto; intros HI; apply H; apply in_or_app; auto.
    + rewrite IHe2, IHe1; auto; intros HI; apply H; apply in_or_app; auto.
  - specialize (IHe1 E z). unfold bindr. destruct (eval e1 E) as [[v E'] | [m E']]; [ | apply IHe1; intros HI; apply H; apply in_or_app; auto].
    destruct (truthy VS v); [ | apply IHe1; intros HI; apply H; apply in_or_app; auto].
    specialize (IHe2 E' z). destruct (eval e2 E') as [[w E''] | [m E'']]; rewrite IHe2, IHe1; auto; intros HI; apply H; apply in_or_app; auto.
  - specialize (IHe1 E z). unfold bindr. destruct (eval e1 E) as [[v E'] | [m E']]; [ | apply IHe1; intros HI; apply H; apply in_or_app; auto].
    destruct (truthy VS v); [apply IHe1; intros HI; apply H; apply in_or_app; auto | ].
    specialize (IHe2 E' z). destruct (eval e2 E') as [[w E''] | [m E'']]; rewrite IHe2, IHe1; auto; intros HI; apply H; apply in_or_app; auto.
  - specialize (IHe1 E z). unfold bindr. destruct (eval e1 E) as [[v E'] | [m E']]; [ | apply IHe1; intros HI; apply H; apply in_or_app; auto].
    destruct (truthy VS v).
    + specialize (IHe2 E' z). destruct (eval e2 E') as [[w E''] | [m E'']]; rewrite IHe2, IHe1; auto; intros HI; apply H; apply in_or_app; auto; right; apply in_or_app; auto.
    + specialize (IHe3 E' z). destruct (eval e3 E') as [[w E''] | [m E'']]; rewrite IHe3, IHe1; auto; intros HI; apply H; apply in_or_app; auto; right; apply in_or_app; auto.
  - specialize (IHe1 E z). unfold bindr. destruct (eval e1 E) as [[v E'] | [m E']]; [ | apply IHe1; intros HI; apply H; apply in_or_app; auto].
    specialize (IHe2 E' z). destruct (eval e2 E') as [[w E''] | [m E'']]; rewrite IHe2, IHe1; auto; intros HI; apply H; apply in_or_app; auto.
  - specialize (IHe E z H). unfold bindr. destruct (eval e E) as [[v E'] | [m E']]; exact IHe.
Qed.

(* the slot [a] stands for the value [v]: it is [v], or a reference to a variable of [rs] that holds [v] *)
Definition slot_ok (rs : list nat) (s : st) (a : @slot VS) (v : V) : Prop :=
  a = SVal v \/ exists x, In x rs /\ a = SRef (resolve s x) /\ rdloc s (resolve s x) = v.
Lemma slot_deref : forall rs s a v, slot_ok rs s a v -> deref s a = v.
Proof. intros rs s a v [-> | [x [_ [-> H]]]]; [reflexivity | exact H]. Qed.
Lemma slot_weak : forall rs rs' s a v, slot_ok rs s a v -> incl rs rs' -> slot_ok rs' s a v.
Proof. intros rs rs' s a v [-> | [x [H1 [-> H]]]] HI; [left; reflexivity | right]. exists x. auto. Qed.

Definition same_exc (s s' : st) : Prop := exc s' = exc s /\ emsg s' = emsg s /\ logs s' = logs s.
Lemma same_refl : forall s, same_exc s s.
Proof. intros s. split; [reflexivity | split; reflexivity]. Qed.
Lemma wr_exc : forall s l v, same_exc s (wrloc s l v).
Proof. intros s [x | i] v; split; [reflexivity | split; reflexivity | reflexivity | split; reflexivity]. Qed.

(* the message [m] was recorded between [s] and [s']: kept for a catch block, or printed *)
Definition logged (hd : bool) (m : V) (s s' : st) : Prop :=
  if hd then emsg s = None -> emsg s' = Some m else emsg s' = emsg s /\ hd_error (logs s') = Some m.
Lemma logged_pre : forall hd m s s' s'', same_exc s s' -> logged hd m s' s'' -> logged hd m s s''.
Proof. intros [ | ] m s s' s'' (_ & H & _); unfold logged; rewrite H; auto. Qed.
Lemma log_exc : forall hd (s : st) m, exc (log_error hd s m) = exc s.
Proof. intros [ | ] s m; unfold log_error; [destruct (emsg s) | ]; reflexivity. Qed.
Lemma log_now : forall hd (s : st) m, logged hd m s (log_error hd s m).
Proof.
  intros [ | ] s m; unfold logged, log_error.
  - intros ->. reflexivity.
  - split; reflexivity.
Qed.
Lemma log_op : forall hd (s s' : st) m, same_exc s s' -> exc (log_error hd s' m) = exc s /\ logged hd m s (log_error hd s' m).
Proof. intros hd s s' m H. split; [rewrite log_exc; apply H | eapply logged_pre; [exact H | apply log_now]]. Qed.

Definition agree_e (hd : bool) (D : list nat) (e : @expr VS) (E : env) (s : st) : Prop :=
  match eval e E with
  | inl (v, E') => exists a s', leval hd e s = inl (a, s') /\ rel D E' s' /\ slot_ok (refs e) s' a v /\ same_exc s s' /\
                     (defd D e = true -> isundef VS v = false)
  | inr (m, E') => exists s', leval hd e s = inr s' /\ rel D E' s' /\ exc s' = exc s /\ logged hd m s s' /\ isundef VS m = false /\ calm_e e = false
  end.

Lemma same_trans : forall s1 s2 s3, same_exc s1 s2 -> same_exc s2 s3 -> same_exc s1 s3.
Proof. intros s1 s2 s3 (A1 & A2 & A3) (B1 & B2 & B3). split; [congruence | split; congruence]. Qed.
Lemma rel_emsg : forall hd D E (s : st) m, rel D E s -> rel D E (log_error hd s m).
Proof. intros [ | ] D E s m H; unfold log_error; [destruct (emsg s) | ]; exact H. Qed.
Lemma rel_exc : forall D E s m, rel D E s -> rel D E (set_exc s m).
Proof. intros D E s m H. exact H. Qed.

Lemma mem_In : forall x l, mem x l = true <-> In x l.
Proof.
  intros x l. rewrite existsb_exists. split.
  - intros [y [H1 H2]]. apply Nat.eqb_eq in H2. subst. exact H1.
  - intros H. exists x. split; [exact H | apply Nat.eqb_refl].
Qed.
Lemma disjoint_spec : forall a b x, disjointb a b = true -> In x a -> ~ In x b.
Proof.
  intros a b x H HI HJ. unfold disjointb in H. rewrite forallb_forall in H. specialize (H _ HI).
  apply negb_true_iff in H. rewrite (proj2 (mem_In x b) HJ) in H. discriminate.
Qed.

Lemma eval_ok : forall hd D (e : @expr VS) (E : env) s, ordered e = true -> asg_ok D e = true -> no_post e = true -> rel D E s -> agree_e hd D e E s.
Proof.
  intros hd D. induction e; intros E s HO HA HP HR; unfold agree_e; cbn [ordered asg_ok no_post eval leval refs defd calm_e] in *;
    repeat match goal with H : _ && _ = true |- _ => apply andb_true_iff in H; destruct H end.
  - exists (SVal v), s. split; [reflexivity | split; [exact HR | split; [left; reflexivity | split; [apply same_refl | ]]]].
    intros H. apply negb_true_iff in H. exact H.
  - exists (SRef (resolve s x)), s. split; [reflexivity | split; [exact HR | split; [ | split; [apply same_refl | ]]]].
    + right. exists x. split; [left; reflexivity | split; [reflexivity | ]]. apply (rd_get D); exact HR.
    + intros H. eapply get_def; eassumption.
  - (* x = e *)
    specialize (IHe E s HO ltac:(assumption) HP HR). unfold agree_e in IHe. unfold bindr.
    destruct (eval e E) as [[v E'] | [m E']].
    + destruct IHe as [a [s' [H1 [H2 [H3 [H4 H5]]]]]]. rewrite H1. cbn [lbind].
      assert (DV : mem x D = true -> isundef VS v = false).
      { intros HM. unfold asg1 in *. rewrite HM in *. cbn [negb orb] in *. auto. }
      pose proof (resolve_rel D E s E' s' x HR H2) as RR. rewrite <- RR. rewrite (slot_deref _ _ _ _ H3).
      pose proof (wr_set D E' s' x v H2 DV) as HW.
      eexists _, _. split; [reflexivity | split; [exact HW | split; [ | split; [ | exact H5]]]].
      * right. exists x. split; [left; reflexivity | ]. split; [rewrite (resolve_rel D E' s' _ _ x H2 HW); reflexivity | ].
        rewrite (rd_get D _ _ _ HW). apply get_set_same.
      * eapply same_trans; [exact H4 | apply wr_exc].
    + destruct IHe as [s' [H1 H2]]. rewrite H1. cbn [lbind]. exists s'. auto.
  - (* x op= e *)
    specialize (IHe E s ltac:(assumption) HA HP HR). unfold agree_e in IHe. unfold bindr.
    pose proof (eval_frame e E x) as FR.
    match goal with H : negb _ = true |- _ => apply negb_true_iff in H; rename H into HNA end.
    assert (NI : ~ In x (assigns e)) by (intros HI; apply mem_In in HI; congruence).
    specialize (FR NI).
    destruct (eval e E) as [[v E'] | [m E']].
    + destruct IHe as [a [s' [H1 [H2 [H3 [H4 H5]]]]]]. rewrite H1. cbn [lbind].
      pose proof (resolve_rel D E s E' s' x HR H2) as RR. rewrite <- RR. rewrite (slot_deref _ _ _ _ H3).
      rewrite (rd_get D _ _ _ H2), FR. unfold ofop, lop.
      pose proof (bin_def VS o (get E x) v) as BD. pose proof (bin_safe_ok VS o (get E x) v) as BS.
      destruct (binop VS o (get E x) v) as [w | m]; cbn [lbind deref].
      * pose proof (wr_set D E' s' x w H2 (fun _ => BD)) as HW.
        eexists _, _. split; [reflexivity | split; [exact HW | split; [ | split; [ | intros _; exact BD]]]].
        { right. exists x. split; [left; reflexivity | ]. split; [rewrite (resolve_rel D E' s' _ _ x H2 HW); reflexivity | ].
          rewrite (rd_get D _ _ _ HW). apply get_set_same. }
        { eapply same_trans; [exact H4 | apply wr_exc]. }
      * eexists. split; [reflexivity | split; [apply rel_emsg; exact H2 | split; [apply log_op; exact H4 | split; [apply log_op; exact H4 | split; [exact BD | ]]]]].
        destruct (bin_safe VS o); [destruct (BS eq_refl); discriminate | apply andb_false_r].
    + destruct IHe as [s' [H1 [H2 [H3 [H4 [H5 H6]]]]]]. rewrite H1. cbn [lbind]. exists s'. rewrite H6. auto 10.
  - (* ++ -- *)
    apply negb_true_iff in HP. subst post. rewrite (rd_get D _ _ _ HR).
    pose proof (wr_set D E s x (step1 VS inc (tonum VS (get E x))) HR (fun _ => step_def VS _ _)) as HW.
    pose proof (inc_safe_ok VS (tonum VS (get E x))) as IS. pose proof (numerr_def VS (tonum VS (get E x))) as ND.
    destruct (numerr VS (tonum VS (get E x))) as [m | ].
    + eexists. split; [reflexivity | split; [apply rel_emsg; exact HW | split; [apply log_op, wr_exc | split; [apply log_op, wr_exc | split; [apply ND; reflexivity | ]]]]].
      * destruct (inc_safe VS); [discriminate (IS eq_refl) | reflexivity].
    + eexists _, _. split; [reflexivity | split; [exact HW | split; [left; reflexivity | split; [apply wr_exc | intros _; apply step_def]]]].
  - (* unary *)
    specialize (IHe E s HO HA HP HR). unfold agree_e in IHe. unfold bindr.
    destruct (eval e E) as [[v E'] | [m E']].
    + destruct IHe as [a [s' [H1 [H2 [H3 [H4 H5]]]]]]. rewrite H1. cbn [lbind]. rewrite (slot_deref _ _ _ _ H3). unfold ofop, lop.
      pose proof (un_def VS u v) as BD. pose proof (un_safe_ok VS u v) as BS. destruct (unop VS u v) as [w | m].
      * eexists _, _. split; [reflexivity | split; [exact H2 | split; [left; reflexivity | split; [exact H4 | intros _; exact BD]]]].
      * eexists. split; [reflexivity | split; [apply rel_emsg; exact H2 | split; [apply log_op; exact H4 | split; [apply log_op; exact H4 | split; [exact BD | ]]]]].
        destruct (un_safe VS u); [destruct (BS eq_refl); discriminate | apply andb_false_r].
    + destruct IHe as [s' [H1 [H2 [H3 [H4 [H5 H6]]]]]]. rewrite H1. cbn [lbind]. exists s'. rewrite H6. auto 10.
  - (* binary *)
    specialize (IHe1 E s ltac:(assumption) ltac:(assumption) ltac:(assumption) HR). unfold agree_e in IHe1. unfold bindr.
    destruct (eval e1 E) as [[v E'] | [m E']].
    + destruct IHe1 as [a [s' [H1' [H2' [H3' [H4' H5']]]]]]. rewrite H1'. cbn [lbind].
      specialize (IHe2 E' s' ltac:(assumption) ltac:(assumption) ltac:(assumption) H2'). unfold agree_e in IHe2.
      pose proof (fun z => eval_frame e2 E' z) as FR.
      destruct (eval e2 E') as [[w E''] | [m E'']].
      * destruct IHe2 as [b [s'' [K1 [K2 [K3 [K4 K5]]]]]]. rewrite K1. cbn [lbind]. rewrite (slot_deref _ _ _ _ K3).
        assert (DA : deref s'' a = v).
        { destruct H3' as [-> | [x [HX [-> HV]]]]; [reflexivity | ]. cbn [deref].
          rewrite <- (resolve_rel D _ _ _ _ x H2' K2). rewrite (rd_get D _ _ _ K2). rewrite FR.
          - rewrite <- HV. symmetry. apply (rd_get D); exact H2'.
          - eapply disjoint_spec; eassumption. }
        rewrite DA. unfold ofop, lop. pose proof (bin_def VS o v w) as BD. pose proof (bin_safe_ok VS o v w) as BS.
        destruct (binop VS o v w) as [u | m].
        { eexists _, _. split; [reflexivity | split; [exact K2 | split; [left; reflexivity | split; [eapply same_trans; eassumption | intros _; exact BD]]]]. }
        { eexists. split; [reflexivity | split; [apply rel_emsg; exact K2 | split; [apply log_op; eapply same_trans; eassumption | split; [apply log_op; eapply same_trans; eassumption | split; [exact BD | ]]]]].
          - destruct (bin_safe VS o); [destruct (BS eq_refl); discriminate | apply andb_false_r]. }
      * destruct IHe2 as [s'' [K1 [K2 [K3 [K4 [K5 K6]]]]]]. rewrite K1. cbn [lbind]. exists s''. rewrite K6, andb_false_r.
        split; [reflexivity | split; [exact K2 | split; [destruct H4'; congruence | split; [eapply logged_pre; eassumption | auto]]]].
    + destruct IHe1 as [s' [K1 [K2 [K3 [K4 [K5 K6]]]]]]. rewrite K1. cbn [lbind]. exists s'. rewrite K6. auto 10.
  - (* && *)
    specialize (IHe1 E s ltac:(assumption) ltac:(assumption) ltac:(assumption) HR). unfold agree_e in IHe1. unfold bindr.
    destruct (eval e1 E) as [[v E'] | [m E']].
    + destruct IHe1 as [a [s' [H1' [H2' [H3' [H4' H5']]]]]]. rewrite H1'. cbn [lbind]. rewrite (slot_deref _ _ _ _ H3').
      specialize (IHe2 E' s' ltac:(assumption) ltac:(assumption) ltac:(assumption) H2'). unfold agree_e in IHe2.
      destruct (truthy VS v).
      * destruct (eval e2 E') as [[w E''] | [m E'']].
        { destruct IHe2 as [b [s'' [K1 [K2 [K3 [K4 K5]]]]]]. rewrite K1. exists b, s''.
          split; [reflexivity | split; [exact K2 | split; [exact K3 | split; [eapply same_trans; eassumption | ]]]].
          intros HD. apply andb_true_iff in HD. destruct HD. auto. }
        { destruct IHe2 as [s'' [K1 [K2 [K3 [K4 [K5 K6]]]]]]. rewrite K1. exists s''. rewrite K6, andb_false_r.
          split; [reflexivity | split; [exact K2 | split; [destruct H4'; congruence | split; [eapply logged_pre; eassumption | auto]]]]. }
      * exists (SVal v), s'. split; [reflexivity | split; [exact H2' | split; [left; reflexivity | split; [exact H4' | ]]]].
        intros HD. apply andb_true_iff in HD. destruct HD. auto.
    + destruct IHe1 as [s' [K1 [K2 [K3 [K4 [K5 K6]]]]]]. rewrite K1. cbn [lbind]. exists s'. rewrite K6. auto 10.
  - (* || *)
    specialize (IHe1 E s ltac:(assumption) ltac:(assumption) ltac:(assumption) HR). unfold agree_e in IHe1. unfold bindr.
    destruct (eval e1 E) as [[v E'] | [m E']].
    + destruct IHe1 as [a [s' [H1' [H2' [H3' [H4' H5']]]]]]. rewrite H1'. cbn [lbind]. rewrite (slot_deref _ _ _ _ H3').
      specialize (IHe2 E' s' ltac:(assumption) ltac:(assumption) ltac:(assumption) H2'). unfold agree_e in IHe2.
      destruct (truthy VS v).
      * exists (SVal v), s'. split; [reflexivity | split; [exact H2' | split; [left; reflexivity | split; [exact H4' | ]]]].
        intros HD. apply andb_true_iff in HD. destruct HD. auto.
      * destruct (eval e2 E') as [[w E''] | [m E'']].
        { destruct IHe2 as [b [s'' [K1 [K2 [K3 [K4 K5]]]]]]. rewrite K1. exists b, s''.
          split; [reflexivity | split; [exact K2 | split; [exact K3 | split; [eapply same_trans; eassumption | ]]]].
          intros HD. apply andb_true_iff in HD. destruct HD. auto. }
        { destruct IHe2 as [s'' [K1 [K2 [K3 [K4 [K5 K6]]]]]]. rewrite K1. exists s''. rewrite K6, andb_false_r.
          split; [reflexivity | split; [exact K2 | split; [destruct H4'; congruence | split; [eapply logged_pre; eassumption | auto]]]]. }
    + destruct IHe1 as [s' [K1 [K2 [K3 [K4 [K5 K6]]]]]]. rewrite K1. cbn [lbind]. exists s'. rewrite K6. auto 10.
  - (* ?: *)
    specialize (IHe1 E s ltac:(assumption) ltac:(assumption) ltac:(assumption) HR). unfold agree_e in IHe1. unfold bindr.
    destruct (eval e1 E) as [[v E'] | [m E']].
    + destruct IHe1 as [a [s' [H1' [H2' [H3' [H4' H5']]]]]]. rewrite H1'. cbn [lbind]. rewrite (slot_deref _ _ _ _ H3').
      destruct (truthy VS v).
      * specialize (IHe2 E' s' ltac:(assumption) ltac:(assumption) ltac:(assumption) H2'). unfold agree_e in IHe2.
        destruct (eval e2 E') as [[w E''] | [m E'']].
        { destruct IHe2 as [b [s'' [K1 [K2 [K3 [K4 K5]]]]]]. rewrite K1. exists b, s''.
          split; [reflexivity | split; [exact K2 | split; [eapply slot_weak; [exact K3 | apply incl_appl; apply incl_refl] | split; [eapply same_trans; eassumption | ]]]].
          intros HD. apply andb_true_iff in HD. destruct HD. auto. }
        { destruct IHe2 as [s'' [K1 [K2 [K3 [K4 [K5 K6]]]]]]. rewrite K1. exists s''. rewrite K6, andb_false_r.
          split; [reflexivity | split; [exact K2 | split; [destruct H4'; congruence | split; [eapply logged_pre; eassumption | auto]]]]. }
      * specialize (IHe3 E' s' ltac:(assumption) ltac:(assumption) ltac:(assumption) H2'). unfold agree_e in IHe3.
        destruct (eval e3 E') as [[w E''] | [m E'']].
        { destruct IHe3 as [b [s'' [K1 [K2 [K3 [K4 K5]]]]]]. rewrite K1. exists b, s''.
          split; [reflexivity | split; [exact K2 | split; [eapply slot_weak; [exact K3 | apply incl_appr; apply incl_refl] | split; [eapply same_trans; eassumption | ]]]].
          intros HD. apply andb_true_iff in HD. destruct HD. auto. }
        { destruct IHe3 as [s'' [K1 [K2 [K3 [K4 [K5 K6]]]]]]. rewrite K1. exists s''. rewrite K6, andb_false_r.
          split; [reflexivity | split; [exact K2 | split; [destruct H4'; congruence | split; [eapply logged_pre; eassumption | auto]]]]. }
    + destruct IHe1 as [s' [K1 [K2 [K3 [K4 [K5 K6]]]]]]. rewrite K1. cbn [lbind]. exists s'. rewrite K6. auto 10.
  - (* comma *)
    specialize (IHe1 E s ltac:(assumption) ltac:(assumption) ltac:(assumption) HR). unfold agree_e in IHe1. unfold bindr.
    destruct (eval e1 E) as [[v E'] | [m E']].
    + destruct IHe1 as [a [s' [H1' [H2' [H3' [H4' H5']]]]]]. rewrite H1'. cbn [lbind].
      specialize (IHe2 E' s' ltac:(assumption) ltac:(assumption) ltac:(assumption) H2'). unfold agree_e in IHe2.
      destruct (eval e2 E') as [[w E''] | [m E'']].
      { destruct IHe2 as [b [s'' [K1 [K2 [K3 [K4 K5]]]]]]. rewrite K1. exists b, s''.
        split; [reflexivity | split; [exact K2 | split; [exact K3 | split; [eapply same_trans; eassumption | exact K5]]]]. }
      { destruct IHe2 as [s'' [K1 [K2 [K3 [K4 [K5 K6]]]]]]. rewrite K1. exists s''. rewrite K6, andb_false_r.
        split; [reflexivity | split; [exact K2 | split; [destruct H4'; congruence | split; [eapply logged_pre; eassumption | auto]]]]. }
    + destruct IHe1 as [s' [K1 [K2 [K3 [K4 [K5 K6]]]]]]. rewrite K1. cbn [lbind]. exists s'. rewrite K6. auto 10.
  - (* void *)
    specialize (IHe E s HO HA HP HR). unfold agree_e in IHe. unfold bindr.
    destruct (eval e E) as [[v E'] | [m E']].
    + destruct IHe as [a [s' [H1' [H2' [H3' [H4' H5']]]]]]. rewrite H1'. cbn [lbind].
      exists (SVal (vundef VS)), s'. split; [reflexivity | split; [exact H2' | split; [left; reflexivity | split; [exact H4' | discriminate]]]].
    + destruct IHe as [s' [K1 [K2 [K3 [K4 [K5 K6]]]]]]. rewrite K1. cbn [lbind]. exists s'. rewrite K6. auto 10.
Qed.

End Sync.
