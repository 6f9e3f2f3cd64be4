(** The automaton read off a tree accepts what the tree means. *)
From Coq Require Import ZArith List Bool Lia.
From Verif Require Import NfaModel NfaSpec.
Import ListNotations.
Open Scope Z_scope.

(** ** Assertion masks *)

Lemma has_lor a b x : has (Z.lor a b) x = has a x || has b x.
Proof.
  unfold has. rewrite Z.land_lor_distr_l.
  destruct (Z.eqb_spec (Z.land a x) 0) as [Ea|Ea]; destruct (Z.eqb_spec (Z.land b x) 0) as [Eb|Eb];
    destruct (Z.eqb_spec (Z.lor (Z.land a x) (Z.land b x)) 0) as [Ec|Ec]; cbn; auto.
  - rewrite Ea, Eb in Ec. destruct Ec. reflexivity.
  - apply Z.lor_eq_0_iff in Ec. destruct Ec; contradiction.
  - apply Z.lor_eq_0_iff in Ec. destruct Ec; contradiction.
  - apply Z.lor_eq_0_iff in Ec. destruct Ec; contradiction.
Qed.

Lemma has_0 x : has 0 x = false.
Proof. unfold has. rewrite Z.land_0_l. reflexivity. Qed.

Lemma or4 x a b c d : x = a || b -> x || (c || d) = (a || c) || (b || d).
Proof. intros ->. destruct a, b, c, d; reflexivity. Qed.

Lemma fails_lor E a b pos p n :
  fails E (Z.lor a b) pos p n = fails E a pos p n || fails E b pos p n.
Proof.
  unfold fails. rewrite !has_lor, <- !andb_assoc, !andb_orb_distrib_l.
  repeat apply or4. reflexivity.
Qed.

Lemma fails_0 E pos p n : fails E 0 pos p n = false.
Proof. unfold fails. rewrite !has_0. reflexivity. Qed.

Definition okm (m : Z) : Prop := has m 4 = false /\ has m 8 = false.

Lemma okm_0 : okm 0.
Proof. split; apply has_0. Qed.

Lemma okm_lor a b : okm a -> okm b -> okm (Z.lor a b).
Proof. intros [A1 A2] [B1 B2]. split; rewrite has_lor; [rewrite A1, B1|rewrite A2, B2]; reflexivity. Qed.

Definition inert (m : Z) : Prop := forall E pos p n, fails E m pos p n = false.

Lemma fails_inert E m k pos p n : inert k -> fails E (Z.lor m k) pos p n = fails E m pos p n.
Proof. intros I. rewrite fails_lor, I. apply orb_false_r. Qed.

Lemma inert_0 : inert 0.
Proof. intros E pos p n. apply fails_0. Qed.
Lemma inert_4 : inert 4. Proof. intros E pos p n. reflexivity. Qed.
Lemma inert_8 : inert 8. Proof. intros E pos p n. reflexivity. Qed.

(** ** What a tree means *)

Section Meaning.
Context (E : env) (txt : list Z).

Definition chk (m : Z) (i : nat) : Prop := fails E m (Z.of_nat i) (before txt i) (after txt i) = false.

Lemma chk_lor a b i : chk (Z.lor a b) i <-> chk a i /\ chk b i.
Proof. unfold chk. rewrite fails_lor. apply orb_false_iff. Qed.

Lemma chk_0 i : chk 0 i.
Proof. apply fails_0. Qed.

(** The characters a literal with these fields takes. *)
Definition accept (lo hi cls : Z) (neg : list Z) (c : Z) : Prop :=
  lo <= c <= hi /\ (cls <> 0 -> in_class E cls c) /\ (forall k, In k neg -> ~ in_class E k c).

Fixpoint den (r : ast) (i j : nat) : Prop :=
  match r with
  | Empty => i = j
  | Assert a => i = j /\ chk a i
  | Lit l => j = S i /\ exists c, char_at txt i = Some c
                                  /\ accept (l_lo l) (l_hi l) (l_cls l) (l_neg l) c
  | Cat x y => exists k, den x i k /\ den y k j
  | Alt x y => den x i j \/ den y i j
  | Iter mn mx x =>
      exists n, times (den x) n i j /\ mn <= Z.of_nat n /\ (mx = -1 \/ Z.of_nat n <= mx)
  end.

(** ** Which trees *)

Fixpoint poss (r : ast) : list Z :=
  match r with
  | Empty | Assert _ => []
  | Lit l => [l_pos l]
  | Cat x y | Alt x y => poss x ++ poss y
  | Iter _ _ x => poss x
  end.

(** The literals of one bracket expression. *)
Fixpoint bracket (x : Z) (r : ast) : Prop :=
  match r with
  | Lit l => l_pos l = x
  | Alt a b => bracket x a /\ bracket x b
  | _ => False
  end.

Definition disjoint (l1 l2 : list Z) : Prop := forall x, In x l1 -> In x l2 -> False.

Fixpoint apart (r : ast) : Prop :=
  match r with
  | Empty | Assert _ => True
  | Lit l => True
  | Cat x y => apart x /\ apart y /\ disjoint (poss x) (poss y)
  | Alt x y => (exists p, bracket p (Alt x y)) \/ (apart x /\ apart y /\ disjoint (poss x) (poss y))
  | Iter _ _ x => apart x
  end.

Fixpoint nonneg (r : ast) : Prop :=
  match r with
  | Empty | Assert _ => True
  | Lit l => 0 <= l_pos l
  | Cat x y | Alt x y => nonneg x /\ nonneg y
  | Iter _ _ x => nonneg x
  end.

Fixpoint masks (r : ast) : Prop :=
  match r with
  | Empty | Lit _ => True
  | Assert a => okm a
  | Cat x y | Alt x y => masks x /\ masks y
  | Iter _ _ x => masks x
  end.

(** tre_ast_to_tnfa's assertions about the counts (regcomp.c 2610-2616). *)
Fixpoint simple (r : ast) : Prop :=
  match r with
  | Empty | Assert _ | Lit _ => True
  | Cat x y | Alt x y => simple x /\ simple y
  | Iter mn mx x => (mn = 0 \/ mn = 1) /\ (mx = -1 \/ mx = 1) /\ simple x
  end.

Fixpoint plain (r : ast) : Prop :=
  match r with
  | Empty | Assert _ | Lit _ => True
  | Cat x y => plain x /\ plain y
  | Alt x y => plain x /\ plain y /\ (null x = true -> null y = true -> emp x = 0)
  | Iter _ _ x => plain x /\ (null x = true -> emp x = 0)
  end.

(** ** Position sets *)

Lemma in_union e s1 s2 a :
  In e (set_union s1 s2 a) <->
  (exists e1, In e1 s1 /\ e_pos e = e_pos e1 /\ e_lo e = e_lo e1 /\ e_hi e = e_hi e1 /\ e_cls e = e_cls e1
              /\ e_neg e = e_neg e1 /\ e_as e = Z.lor (e_as e1) a) \/ In e s2.
Proof.
  unfold set_union. rewrite in_app_iff, in_map_iff. split.
  - intros [(e1 & <- & I)|I]; [|auto]. left. exists e1. cbn. auto 10.
  - intros [(e1 & I & H1 & H2 & H3 & H4 & H5 & H6)|I]; [|auto]. left. exists e1. split; [|auto].
    destruct e. cbn in *. subst. reflexivity.
Qed.

Lemma emp_ok r : masks r -> okm (emp r).
Proof.
  induction r as [|a|l|x IHx y IHy|x IHx y IHy|mn mx x IHx]; cbn; intros M; try apply okm_0; auto.
  - destruct M. apply okm_lor; auto.
  - destruct M. destruct (null x); auto.
  - destruct (null x); [auto|apply okm_0].
Qed.

Lemma first_pos r e : In e (first r) -> In (e_pos e) (poss r).
Proof.
  revert e. induction r as [|a|l|x IHx y IHy|x IHx y IHy|mn mx x IHx]; cbn; intros e I; try tauto.
  - destruct I as [<-|[]]. cbn. auto.
  - rewrite in_app_iff. destruct (null x); [|auto]. apply in_union in I.
    destruct I as [(e1 & I & -> & _)|I]; auto.
  - rewrite in_app_iff. apply in_union in I. destruct I as [(e1 & I & -> & _)|I]; auto.
  - auto.
Qed.

Lemma last_pos r e : In e (last r) -> In (e_pos e) (poss r).
Proof.
  revert e. induction r as [|a|l|x IHx y IHy|x IHx y IHy|mn mx x IHx]; cbn; intros e I; try tauto.
  - destruct I as [<-|[]]. cbn. auto.
  - rewrite in_app_iff. destruct (null y); [|auto]. apply in_union in I.
    destruct I as [(e1 & I & -> & _)|I]; auto.
  - rewrite in_app_iff. apply in_union in I. destruct I as [(e1 & I & -> & _)|I]; auto.
  - auto.
Qed.

Lemma first_ok r e : masks r -> In e (first r) -> okm (e_as e).
Proof.
  revert e. induction r as [|a|l|x IHx y IHy|x IHx y IHy|mn mx x IHx]; cbn; intros e M I; try tauto.
  - destruct I as [<-|[]]. apply okm_0.
  - destruct M as [M1 M2]. destruct (null x); [|auto]. apply in_union in I.
    destruct I as [(e1 & I & _ & _ & _ & _ & _ & ->)|I]; [apply okm_lor; [auto|apply emp_ok; auto]|auto].
  - destruct M as [M1 M2]. apply in_union in I.
    destruct I as [(e1 & I & _ & _ & _ & _ & _ & ->)|I]; [apply okm_lor; [auto|apply okm_0]|auto].
  - auto.
Qed.

Lemma last_ok r e : masks r -> In e (last r) -> okm (e_as e).
Proof.
  revert e. induction r as [|a|l|x IHx y IHy|x IHx y IHy|mn mx x IHx]; cbn; intros e M I; try tauto.
  - destruct I as [<-|[]]. apply okm_0.
  - destruct M as [M1 M2]. destruct (null y); [|auto]. apply in_union in I.
    destruct I as [(e1 & I & _ & _ & _ & _ & _ & ->)|I]; [apply okm_lor; [auto|apply emp_ok; auto]|auto].
  - destruct M as [M1 M2]. apply in_union in I.
    destruct I as [(e1 & I & _ & _ & _ & _ & _ & ->)|I]; [apply okm_lor; [auto|apply okm_0]|auto].
  - auto.
Qed.

Lemma pos_nonneg r p : nonneg r -> In p (poss r) -> 0 <= p.
Proof.
  induction r as [|a|l|x IHx y IHy|x IHx y IHy|mn mx x IHx]; cbn; intros N I; try tauto.
  - destruct I as [<-|[]]. exact N.
  - rewrite in_app_iff in I. destruct N, I; auto.
  - rewrite in_app_iff in I. destruct N, I; auto.
Qed.

(** Entries with the same position carry the same assertions. *)
Definition coherent (s : list ent) : Prop :=
  forall e1 e2, In e1 s -> In e2 s -> e_pos e1 = e_pos e2 -> e_as e1 = e_as e2.

Lemma bracket_first p r : bracket p r -> forall e, In e (first r) -> e_pos e = p /\ e_as e = 0.
Proof.
  induction r as [|a|l|x IHx y IHy|x IHx y IHy|mn mx x IHx]; cbn; intros B e I; try tauto.
  - destruct I as [<-|[]]. auto.
  - destruct B as [B1 B2]. apply in_union in I. destruct I as [(e1 & I & -> & _ & _ & _ & _ & ->)|I].
    + destruct (IHx B1 e1 I) as [-> ->]. auto.
    + auto.
Qed.

Lemma first_coherent r : apart r -> coherent (first r).
Proof.
  induction r as [|a|l|x IHx y IHy|x IHx y IHy|mn mx x IHx]; cbn [first apart]; intros A e1 e2 I1 I2 P;
    try contradiction.
  - cbn in I1, I2. destruct I1 as [<-|[]]. destruct I2 as [<-|[]]. reflexivity.
  - destruct A as (A1 & A2 & D). destruct (null x); [|apply (IHx A1 e1 e2 I1 I2 P)].
    apply in_union in I1. apply in_union in I2.
    destruct I1 as [(d1 & I1 & Q1 & _ & _ & _ & _ & ->)|I1]; destruct I2 as [(d2 & I2 & Q2 & _ & _ & _ & _ & ->)|I2].
    + f_equal. apply (IHy A2 d1 d2 I1 I2). congruence.
    + destruct (D (e_pos e1)); [rewrite P; apply first_pos; auto|rewrite Q1; apply first_pos; auto].
    + destruct (D (e_pos e1)); [apply first_pos; auto|rewrite P, Q2; apply first_pos; auto].
    + apply (IHx A1 e1 e2 I1 I2 P).
  - destruct A as [[p B]|(A1 & A2 & D)].
    + change (set_union (first x) (first y) 0) with (first (Alt x y)) in I1, I2.
      destruct (bracket_first p _ B e1 I1) as [_ ->], (bracket_first p _ B e2 I2) as [_ ->]. reflexivity.
    + apply in_union in I1. apply in_union in I2.
      destruct I1 as [(d1 & I1 & Q1 & _ & _ & _ & _ & ->)|I1]; destruct I2 as [(d2 & I2 & Q2 & _ & _ & _ & _ & ->)|I2].
      * f_equal. apply (IHx A1 d1 d2 I1 I2). congruence.
      * destruct (D (e_pos e1)); [rewrite Q1; apply first_pos; auto|rewrite P; apply first_pos; auto].
      * destruct (D (e_pos e1)); [rewrite P, Q2; apply first_pos; auto|apply first_pos; auto].
      * apply (IHy A2 e1 e2 I1 I2 P).
  - apply (IHx A e1 e2 I1 I2 P).
Qed.

(** ** Transitions *)

Lemma from_one_sound e s : forall prev t, In t (from_one e prev s) -> exists f, In f s /\ t = mk e f.
Proof.
  induction s as [|f s IH]; cbn; intros prev t I; [contradiction|].
  destruct (e_pos f =? prev).
  - destruct (IH _ _ I) as (g & G & ->). exists g. auto.
  - destruct I as [<-|I]; [exists f; auto|]. destruct (IH _ _ I) as (g & G & ->). exists g. auto.
Qed.

Lemma from_one_complete e s :
  forall prev f, In f s -> e_pos f <> prev -> exists g, In g s /\ e_pos g = e_pos f /\ In (mk e g) (from_one e prev s).
Proof.
  induction s as [|h s IH]; cbn; intros prev f I N; [contradiction|].
  destruct (Z.eqb_spec (e_pos h) prev) as [Q|Q].
  - destruct I as [<-|I]; [contradiction|]. destruct (IH prev f I N) as (g & G & P & J). exists g. auto.
  - destruct I as [<-|I]; [exists h; cbn; auto|].
    destruct (Z.eq_dec (e_pos f) (e_pos h)) as [R|R]; [exists h; cbn; auto|].
    destruct (IH (e_pos h) f I R) as (g & G & P & J). exists g. cbn. auto.
Qed.

Lemma make_sound s1 s2 t : In t (make_trans s1 s2) -> exists e f, In e s1 /\ In f s2 /\ t = mk e f.
Proof.
  unfold make_trans. rewrite in_flat_map. intros (e & I & J).
  destruct (from_one_sound e s2 _ _ J) as (f & F & ->). exists e, f. auto.
Qed.

Lemma make_complete s1 s2 e f :
  In e s1 -> In f s2 -> 0 <= e_pos f -> coherent s2 ->
  exists g, e_pos g = e_pos f /\ e_as g = e_as f /\ In g s2 /\ In (mk e g) (make_trans s1 s2).
Proof.
  intros I J N C. destruct (from_one_complete e s2 (-1) f J ltac:(lia)) as (g & G & P & K).
  exists g. split; [exact P|]. split; [apply C; auto|]. split; [exact G|].
  unfold make_trans. apply in_flat_map. exists e. auto.
Qed.

(** The entry takes the character at index i, and its assertions hold behind it. *)
Definition ends (e : ent) (i : nat) : Prop :=
  exists c, char_at txt i = Some c /\ accept (e_lo e) (e_hi e) (e_cls e) (e_neg e) c /\ chk (e_as e) (S i).

Definition takes (t : trn) (i : nat) : Prop :=
  exists c, char_at txt i = Some c /\ fires E t (Z.of_nat (S i)) c (after txt (S i)) = true.

Lemma in_class_dec k c :
  {in_class E k c} + {~ in_class E k c}.
Proof.
  unfold in_class. destruct (icase E).
  - destruct (isct E (upc E c) k), (isct E (lowc E c) k); auto.
    right. intros [|]; discriminate.
  - destruct (isct E c k); auto.
Qed.

Lemma neg_match_spec ks c : neg_match E ks c = false <-> forall k, In k ks -> ~ in_class E k c.
Proof.
  induction ks as [|k ks IH]; cbn; [split; [intros _ ? []|auto]|].
  assert (Q : (negb (icase E) && isct E c k || icase E && (isct E (upc E c) k || isct E (lowc E c) k)) = true
              <-> in_class E k c).
  { unfold in_class. destruct (icase E); cbn.
    - rewrite orb_true_iff. tauto.
    - rewrite orb_false_r. tauto. }
  destruct (negb (icase E) && isct E c k || icase E && (isct E (upc E c) k || isct E (lowc E c) k)).
  - split; [discriminate|]. intros H. destruct (H k); [auto|]. apply Q. reflexivity.
  - rewrite IH. split.
    + intros H k' [<-|I]; [|auto]. intros C. apply Q in C. discriminate.
    + intros H k' I. apply H. auto.
Qed.

Lemma nonempty_spec l : nonempty l = false -> l = [].
Proof. destruct l; [auto|discriminate]. Qed.

Lemma chk_before i c : char_at txt i = Some c -> before txt (S i) = c.
Proof. unfold char_at, before. intros H. apply nth_error_nth with (d := 0) in H. exact H. Qed.

Lemma takes_mk e f i :
  okm (e_as e) -> okm (e_as f) -> (takes (mk e f) i <-> ends e i /\ chk (e_as f) (S i)).
Proof.
  intros [O1 O2] [O3 O4].
  assert (K : forall c, char_at txt i = Some c ->
    (fires E (mk e f) (Z.of_nat (S i)) c (after txt (S i)) = true
     <-> (accept (e_lo e) (e_hi e) (e_cls e) (e_neg e) c /\ chk (e_as e) (S i)) /\ chk (e_as f) (S i))).
  { intros c C. unfold fires. set (m := t_as (mk e f)).
    assert (Fm : fails E m (Z.of_nat (S i)) c (after txt (S i)) = false
                 <-> chk (e_as e) (S i) /\ chk (e_as f) (S i)).
    { unfold m. cbn [mk t_as]. rewrite fails_inert; [rewrite fails_inert|].
      - rewrite fails_lor, orb_false_iff. unfold chk. rewrite (chk_before i c C). reflexivity.
      - destruct (e_cls e =? 0); [apply inert_0|apply inert_4].
      - destruct (nonempty (e_neg e)); [apply inert_8|apply inert_0]. }
    assert (H4 : has m 4 = negb (e_cls e =? 0)).
    { unfold m. cbn [mk t_as]. rewrite !has_lor, O1, O3. cbn [orb].
      destruct (e_cls e =? 0), (nonempty (e_neg e)); reflexivity. }
    assert (H8 : has m 8 = nonempty (e_neg e)).
    { unfold m. cbn [mk t_as]. rewrite !has_lor, O2, O4. cbn [orb].
      destruct (e_cls e =? 0), (nonempty (e_neg e)); reflexivity. }
    assert (Cm : class_fails E (mk e f) c = false
                 <-> (e_cls e <> 0 -> in_class E (e_cls e) c) /\ (forall k, In k (e_neg e) -> ~ in_class E k c)).
    { unfold class_fails. change (t_as (mk e f)) with m. rewrite H4, H8. cbn [mk t_cls t_neg].
      rewrite !orb_false_iff. rewrite <- neg_match_spec.
      destruct (Z.eqb_spec (e_cls e) 0) as [Z0|Z0]; cbn [negb andb].
      - destruct (nonempty (e_neg e)) eqn:Ne; cbn [andb].
        + split; [intros [_ H]; split; [intros []; exact Z0|exact H]|intros [_ H]; auto].
        + rewrite (nonempty_spec _ Ne). cbn. split; [intros _; split; [intros []; exact Z0|reflexivity]|auto].
      - assert (Q : (negb (icase E) && negb (isct E c (e_cls e)) = false
                     /\ icase E && negb (isct E (lowc E c) (e_cls e)) && negb (isct E (upc E c) (e_cls e)) = false)
                    <-> in_class E (e_cls e) c).
        { unfold in_class. destruct (icase E); cbn [negb andb].
          - destruct (isct E (lowc E c) (e_cls e)), (isct E (upc E c) (e_cls e)); cbn; intuition discriminate.
          - destruct (isct E c (e_cls e)); cbn; intuition discriminate. }
        rewrite Q. destruct (nonempty (e_neg e)) eqn:Ne; cbn [andb].
        + tauto.
        + rewrite (nonempty_spec _ Ne). cbn. tauto. }
    assert (Zm : (m =? 0) = true -> fails E m (Z.of_nat (S i)) c (after txt (S i)) = false
                                     /\ class_fails E (mk e f) c = false).
    { intros Z0. apply Z.eqb_eq in Z0. split.
      - rewrite Z0. apply fails_0.
      - unfold class_fails. change (t_as (mk e f)) with m. rewrite Z0. reflexivity. }
    change (t_as (mk e f)) with m. cbn [mk t_lo t_hi]. fold (mk e f).
    unfold accept. rewrite !andb_true_iff, !Z.leb_le, negb_true_iff.
    assert (R : (negb (m =? 0) && (fails E m (Z.of_nat (S i)) c (after txt (S i)) || class_fails E (mk e f) c)) = false
                <-> fails E m (Z.of_nat (S i)) c (after txt (S i)) = false /\ class_fails E (mk e f) c = false).
    { destruct (m =? 0) eqn:Z0; cbn [negb andb].
      - split; [intros _; apply Zm; reflexivity|auto].
      - apply orb_false_iff. }
    rewrite R, Fm, Cm. tauto. }
  unfold takes, ends. split.
  - intros (c & C & F). apply (K c C) in F. destruct F as [[F1 F2] F3]. split; [exists c; auto|auto].
  - intros [(c & C & F1 & F2) F3]. exists c. split; [exact C|]. apply (K c C). auto.
Qed.

(** ** Paths *)

Inductive path (T : list trn) : nat -> Z -> nat -> Z -> Prop :=
| p_nil i p : path T i p i p
| p_cons i p t k q :
    In t T -> t_src t = p -> takes t i -> path T (S i) (t_dst t) k q -> path T i p k q.

Lemma path_app T i p k q m r : path T i p k q -> path T k q m r -> path T i p m r.
Proof. induction 1; intros P; [exact P|]. eapply p_cons; eauto. Qed.

Lemma path_incl T T' i p k q : (forall t, In t T -> In t T') -> path T i p k q -> path T' i p k q.
Proof. intros I. induction 1; [apply p_nil|]. eapply p_cons; eauto. Qed.

Lemma path_le T i p k q : path T i p k q -> (i <= k)%nat.
Proof. induction 1; lia. Qed.

Lemma trans_pos r t : In t (trans r) -> In (t_src t) (poss r) /\ In (t_dst t) (poss r).
Proof.
  revert t. induction r as [|a|l|x IHx y IHy|x IHx y IHy|mn mx x IHx]; cbn [trans poss]; intros t I;
    try contradiction.
  - rewrite !in_app_iff in *. destruct I as [I|[I|I]].
    + destruct (make_sound _ _ _ I) as (e & f & I1 & I2 & ->). cbn. split.
      * left. apply last_pos. auto.
      * right. apply first_pos. auto.
    + destruct (IHx _ I). auto.
    + destruct (IHy _ I). auto.
  - rewrite !in_app_iff in *. destruct I as [I|I].
    + destruct (IHx _ I). auto.
    + destruct (IHy _ I). auto.
  - rewrite !in_app_iff in *. destruct I as [I|I]; [|auto].
    destruct (mx =? -1); [|contradiction].
    destruct (make_sound _ _ _ I) as (e & f & I1 & I2 & ->). cbn. split.
    + apply last_pos. auto.
    + apply first_pos. auto.
Qed.

(** A path that starts in the right part stays there. *)
Lemma path_right x y X i p k q :
  disjoint (poss x) (poss y) -> (forall t, In t X -> In (t_src t) (poss x)) ->
  path (X ++ trans x ++ trans y) i p k q -> In p (poss y) -> path (trans y) i p k q /\ In q (poss y).
Proof.
  intros D SX P. induction P as [i p|i p t k q I S0 T0 P IH]; intros Ip; [split; [apply p_nil|auto]|].
  rewrite !in_app_iff in I. subst p. destruct I as [I|[I|I]].
  - destruct (D (t_src t)); auto.
  - destruct (D (t_src t)); [apply trans_pos; exact I|auto].
  - destruct IH as [P' Q]; [apply trans_pos; exact I|]. split; [|exact Q]. eapply p_cons; eauto.
Qed.

(** A path that starts in the left part stays there or crosses once. *)
Lemma path_left x y X i p k q :
  disjoint (poss x) (poss y) -> (forall t, In t X -> In (t_src t) (poss x) /\ In (t_dst t) (poss y)) ->
  path (X ++ trans x ++ trans y) i p k q -> In p (poss x) ->
  (path (trans x) i p k q /\ In q (poss x))
  \/ exists m p1 t, path (trans x) i p m p1 /\ In t X /\ t_src t = p1 /\ takes t m
                    /\ path (trans y) (S m) (t_dst t) k q /\ In q (poss y).
Proof.
  intros D SX P. induction P as [i p|i p t k q I S0 T0 P IH]; intros Ip; [left; split; [apply p_nil|auto]|].
  rewrite !in_app_iff in I. subst p. destruct I as [I|[I|I]].
  - right. exists i, (t_src t), t. split; [apply p_nil|]. split; [exact I|]. split; [reflexivity|].
    split; [exact T0|].
    apply path_right with (x := x) (X := X); auto.
    + intros t' I'. apply SX. exact I'.
    + apply SX. exact I.
  - destruct IH as [[P' Q]|(m & p1 & t' & P' & J)]; [apply trans_pos; exact I| |].
    + left. split; [|exact Q]. eapply p_cons; eauto.
    + right. exists m, p1, t'. split; [|exact J]. eapply p_cons; eauto.
  - destruct (D (t_src t)); [auto|apply trans_pos; exact I].
Qed.

(** ** The automaton of a tree *)

Definition acc (r : ast) (i j : nat) : Prop :=
  exists f k p e, In f (first r) /\ chk (e_as f) i /\ path (trans r) i (e_pos f) k p
                  /\ In e (last r) /\ e_pos e = p /\ ends e k /\ j = S k.

Lemma ends_or e e1 a i :
  e_lo e = e_lo e1 -> e_hi e = e_hi e1 -> e_cls e = e_cls e1 -> e_neg e = e_neg e1 ->
  e_as e = Z.lor (e_as e1) a -> (ends e i <-> ends e1 i /\ chk a (S i)).
Proof.
  intros H1 H2 H3 H4 H5. unfold ends. rewrite H1, H2, H3, H4, H5. split.
  - intros (c & C & A & K). apply chk_lor in K. destruct K. split; [exists c; auto|auto].
  - intros [(c & C & A & K) L]. exists c. split; [exact C|]. split; [exact A|]. apply chk_lor. auto.
Qed.

Lemma bracket_trans p r : bracket p r -> trans r = [].
Proof.
  induction r as [|a|l|x IHx y IHy|x IHx y IHy|mn mx x IHx]; cbn; intros B; try tauto.
  destruct B. rewrite IHx, IHy by assumption. reflexivity.
Qed.

Lemma bracket_last p r :
  bracket p r -> forall e i, In e (last r) -> ends e i -> den r i (S i).
Proof.
  induction r as [|a|l|x IHx y IHy|x IHx y IHy|mn mx x IHx]; cbn [bracket last den]; intros B e i I H; try contradiction.
  - split; [reflexivity|]. destruct I as [<-|[]]. destruct H as (c & C & A & _). exists c. auto.
  - destruct B as [B1 B2]. apply in_union in I. destruct I as [(e1 & I & H0 & H1 & H2 & H3 & H4 & H5)|I].
    + left. apply (IHx B1 e1 i I). apply (ends_or e e1 0 i H1 H2 H3 H4 H5) in H. tauto.
    + right. apply (IHy B2 e i I H).
Qed.

Lemma bracket_den p r :
  bracket p r -> forall i j, den r i j -> j = S i /\ exists e, In e (last r) /\ e_pos e = p /\ ends e i.
Proof.
  induction r as [|a|l|x IHx y IHy|x IHx y IHy|mn mx x IHx]; cbn [bracket last den]; intros B i j H; try contradiction.
  - destruct H as [-> (c & C & A)]. split; [reflexivity|]. eexists. split; [left; reflexivity|].
    split; [exact B|]. exists c. split; [exact C|]. split; [exact A|apply chk_0].
  - destruct B as [B1 B2]. destruct H as [H|H].
    + destruct (IHx B1 i j H) as (-> & e & I & P & F). split; [reflexivity|].
      exists {| e_pos := e_pos e; e_lo := e_lo e; e_hi := e_hi e; e_cls := e_cls e; e_neg := e_neg e;
                e_as := Z.lor (e_as e) 0 |}.
      split; [apply in_union; left; exists e; cbn; auto 10|]. split; [exact P|].
      eapply ends_or with (e1 := e) (a := 0); cbn; auto. split; [exact F|apply chk_0].
    + destruct (IHy B2 i j H) as (-> & e & I & P & F). split; [reflexivity|].
      exists e. split; [apply in_union; auto|auto].
Qed.

Lemma bracket_first_some p r : bracket p r -> exists e, In e (first r).
Proof.
  induction r as [|a|l|x IHx y IHy|x IHx y IHy|mn mx x IHx]; cbn [bracket first]; intros B; try contradiction.
  - eexists. left. reflexivity.
  - destruct B as [B1 B2]. destruct (IHy B2) as [e I]. exists e. apply in_union. auto.
Qed.

Lemma bracket_masks p r : bracket p r -> masks r.
Proof. induction r; cbn; intros B; try contradiction; try exact Logic.I. destruct B. auto. Qed.

(** ** Soundness *)

Lemma times_one (R : nat -> nat -> Prop) i j : R i j -> times R 1 i j.
Proof. intros H. exists j. split; [exact H|reflexivity]. Qed.

Lemma star_path x i p k q :
  path (make_trans (last x) (first x) ++ trans x) i p k q ->
  path (trans x) i p k q
  \/ exists m e f, path (trans x) i p m (e_pos e) /\ In e (last x) /\ In f (first x) /\ takes (mk e f) m
                   /\ path (make_trans (last x) (first x) ++ trans x) (S m) (e_pos f) k q.
Proof.
  induction 1 as [i p|i p t k q I S0 T0 P IH]; [left; apply p_nil|].
  rewrite in_app_iff in I. destruct I as [I|I].
  - destruct (make_sound _ _ _ I) as (e & f & I1 & I2 & ->). right. exists i, e, f. cbn in S0, P. subst p.
    split; [apply p_nil|]. auto.
  - destruct IH as [P'|(m & e & f & P' & J)].
    + left. eapply p_cons; eauto.
    + right. exists m, e, f. split; [|exact J]. eapply p_cons; eauto.
Qed.

Lemma null_sound r i : masks r -> simple r -> null r = true -> chk (emp r) i -> den r i i.
Proof.
  induction r as [|a|l|x IHx y IHy|x IHx y IHy|mn mx x IHx]; cbn [null emp den masks simple];
    intros M S0 N C; try discriminate.
  - reflexivity.
  - auto.
  - apply andb_true_iff in N. destruct N as [N1 N2]. destruct M, S0. apply chk_lor in C. destruct C.
    exists i. auto.
  - destruct M, S0. destruct (null x) eqn:Nx; [left; auto|right; auto].
  - destruct S0 as (Hmn & Hmx & S0). apply orb_true_iff in N. destruct N as [N|N].
    + apply Z.eqb_eq in N. subst mn. exists O. split; [reflexivity|]. split; [lia|]. destruct Hmx; [auto|right; lia].
    + rewrite N in C. exists 1%nat. split; [apply times_one; auto|]. split; [lia|]. destruct Hmx; [auto|right; lia].
Qed.

Lemma acc_sound r : masks r -> simple r -> apart r -> forall i j, acc r i j -> den r i j.
Proof.
  induction r as [|a|l|x IHx y IHy|x IHx y IHy|mn mx x IHx]; intros M S0 A i j (f & k & p & e & If & Cf & P & Ie & Pe & He & ->);
    cbn [first last trans] in *; try contradiction.
  - destruct If as [<-|[]]. destruct Ie as [<-|[]]. inversion P as [|? ? ? ? ? It]; subst; [|contradiction].
    destruct He as (c & C & H & _). cbn. split; [reflexivity|]. exists c. auto.
  - destruct M as [M1 M2]. destruct S0 as [S1 S2]. destruct A as (A1 & A2 & D). cbn [den].
    set (X := make_trans (last x) (first y)) in *.
    assert (SX : forall t, In t X -> In (t_src t) (poss x) /\ In (t_dst t) (poss y)).
    { intros t It. destruct (make_sound _ _ _ It) as (e' & f' & I1 & I2 & ->). cbn.
      split; [apply last_pos; auto|apply first_pos; auto]. }
    (* the first entry *)
    assert (Fst : In f (first x) \/ (null x = true /\ exists f1, In f1 (first y) /\ e_pos f = e_pos f1
                                                        /\ e_as f = Z.lor (e_as f1) (emp x))).
    { destruct (null x); [|auto]. apply in_union in If.
      destruct If as [(f1 & I1 & P1 & _ & _ & _ & _ & Q1)|If]; [right|auto]. split; [reflexivity|]. exists f1. auto. }
    assert (Lst : In e (last y) \/ (null y = true /\ exists e1, In e1 (last x) /\ e_pos e = e_pos e1
                                       /\ (ends e k <-> ends e1 k /\ chk (emp y) (S k)))).
    { destruct (null y); [|auto]. apply in_union in Ie.
      destruct Ie as [(e1 & I1 & P1 & H1 & H2 & H3 & H4 & Q1)|Ie]; [right|auto]. split; [reflexivity|]. exists e1.
      split; [exact I1|]. split; [exact P1|]. apply ends_or; auto. }
    destruct Fst as [Ifx|(Nx & f1 & If1 & Pf1 & Af1)].
    + destruct (path_left x y X i (e_pos f) k p D SX P (first_pos _ _ Ifx)) as [[P1 Q1]|(m & p1 & t & P1 & It & Ts & Tt & P2 & Q2)].
      * destruct Lst as [Iy|(Ny & e1 & I1 & Pe1 & Hk)].
        { destruct (D p Q1). rewrite <- Pe. apply last_pos. exact Iy. }
        apply Hk in He. destruct He as [He1 Hc].
        exists (S k). split.
        -- apply IHx; auto. exists f, k, p, e1. repeat (split; [solve [auto|congruence]|]). reflexivity.
        -- apply null_sound; auto.
      * destruct Lst as [Iy|(Ny & e1 & I1 & Pe1 & Hk)].
        2:{ destruct (D p); [rewrite <- Pe, Pe1; apply last_pos; exact I1|exact Q2]. }
        destruct (make_sound _ _ _ It) as (e' & f' & J1 & J2 & ->). cbn in Ts, P2.
        apply takes_mk in Tt; [|apply (last_ok x); auto|apply (first_ok y); auto]. destruct Tt as [T1 T2].
        exists (S m). split.
        -- apply IHx; auto. exists f, m, p1, e'. repeat (split; [solve [auto]|]). reflexivity.
        -- apply IHy; auto. exists f', k, p, e. repeat (split; [solve [auto]|]). reflexivity.
    + destruct (path_right x y X i (e_pos f) k p D (fun t H => proj1 (SX t H)) P) as [P1 Q1].
      { rewrite Pf1. apply first_pos. exact If1. }
      destruct Lst as [Iy|(Ny & e1 & I1 & Pe1 & Hk)].
      2:{ destruct (D p); [rewrite <- Pe, Pe1; apply last_pos; exact I1|exact Q1]. }
      rewrite Af1 in Cf. apply chk_lor in Cf. destruct Cf as [C1 C2].
      exists i. split; [apply null_sound; auto|]. apply IHy; auto. exists f1, k, p, e.
      repeat (split; [solve [auto|rewrite <- Pf1; auto]|]). reflexivity.
  - destruct A as [[b B]|(A1 & A2 & D)].
    + change (trans x ++ trans y) with (trans (Alt x y)) in P. rewrite (bracket_trans b _ B) in P.
      assert (k = i).
      { inversion P as [|? ? ? ? ? It]; [reflexivity|contradiction]. }
      subst k. apply (bracket_last b _ B e i Ie He).
    + destruct M as [M1 M2]. destruct S0 as [S1 S2]. cbn [den].
      assert (Fst : (In (e_pos f) (poss x) /\ exists f1, In f1 (first x) /\ e_pos f = e_pos f1 /\ chk (e_as f1) i)
                    \/ In f (first y)).
      { apply in_union in If. destruct If as [(f1 & I1 & P1 & _ & _ & _ & _ & Q1)|If]; [left|auto].
        split; [rewrite P1; apply first_pos; auto|]. exists f1. split; [auto|]. split; [auto|].
        rewrite Q1 in Cf. apply chk_lor in Cf. tauto. }
      assert (Lst : (In p (poss x) /\ exists e1, In e1 (last x) /\ e_pos e = e_pos e1 /\ ends e1 k)
                    \/ In e (last y)).
      { apply in_union in Ie. destruct Ie as [(e1 & I1 & P1 & H1 & H2 & H3 & H4 & Q1)|Ie]; [left|auto].
        split; [rewrite <- Pe, P1; apply last_pos; auto|]. exists e1. split; [auto|]. split; [auto|].
        apply (ends_or e e1 0 k) in He; tauto. }
      assert (SX : forall t, In t (@nil trn) -> In (t_src t) (poss x) /\ In (t_dst t) (poss y)) by (intros t []).
      change (trans x ++ trans y) with ([] ++ trans x ++ trans y) in P.
      destruct Fst as [(Px & f1 & I1 & Pf & Cf1)|Ify].
      * destruct (path_left x y [] i (e_pos f) k p D SX P Px) as [[P1 Q1]|(m & p1 & t & _ & [] & _)].
        destruct Lst as [(_ & e1 & J1 & Pe1 & He1)|Iy].
        2:{ destruct (D p Q1). rewrite <- Pe. apply last_pos. exact Iy. }
        left. apply IHx; auto. exists f1, k, p, e1. rewrite <- Pf.
        repeat (split; [solve [auto|congruence]|]). reflexivity.
      * destruct (path_right x y [] i (e_pos f) k p D (fun t H => proj1 (SX t H)) P (first_pos _ _ Ify)) as [P1 Q1].
        destruct Lst as [(Px & _)|Iy]; [destruct (D p Px Q1)|].
        right. apply IHy; auto. exists f, k, p, e. repeat (split; [solve [auto]|]). reflexivity.
  - destruct S0 as (Hmn & Hmx & S1). cbn [den masks apart] in *.
    destruct (Z.eqb_spec mx (-1)) as [->|Nmx].
    + (* no limit *)
      assert (K : forall d i f, (k - i <= d)%nat -> In f (first x) -> chk (e_as f) i ->
                  path (make_trans (last x) (first x) ++ trans x) i (e_pos f) k p ->
                  exists n, times (den x) (S n) i (S k)).
      { clear i f If Cf P. induction d as [|d IHd]; intros i f Hd If Cf P.
        - pose proof (path_le _ _ _ _ _ P). assert (i = k) by lia. subst i.
          destruct (star_path x k (e_pos f) k p P) as [P1|(m & e' & f' & P1 & _ & _ & _ & P2)].
          + exists O. apply times_one. apply IHx; auto. exists f, k, p, e. repeat (split; [solve [auto]|]). reflexivity.
          + apply path_le in P1. apply path_le in P2. lia.
        - destruct (star_path x i (e_pos f) k p P) as [P1|(m & e' & f' & P1 & J1 & J2 & Tt & P2)].
          + exists O. apply times_one. apply IHx; auto. exists f, k, p, e. repeat (split; [solve [auto]|]). reflexivity.
          + apply takes_mk in Tt; [|apply (last_ok x); auto|apply (first_ok x); auto]. destruct Tt as [T1 T2].
            pose proof (path_le _ _ _ _ _ P1). pose proof (path_le _ _ _ _ _ P2).
            destruct (IHd (S m) f' ltac:(lia) J2 T2 P2) as [n Hn]. exists (S n), (S m). split; [|exact Hn].
            apply IHx; auto. exists f, m, (e_pos e'), e'. repeat (split; [solve [auto]|]). reflexivity. }
      destruct (K (k - i)%nat i f ltac:(lia) If Cf P) as [n Hn]. exists (S n). split; [exact Hn|]. split; [lia|auto].
    + assert (mx = 1) by tauto. subst mx. exists 1%nat. split; [|lia].
      apply times_one. apply IHx; auto. exists f, k, p, e. repeat (split; [solve [auto]|]). reflexivity.
Qed.

(** ** Completeness *)

Lemma den_le r i j : den r i j -> (i <= j)%nat.
Proof.
  revert i j. induction r as [|a|l|x IHx y IHy|x IHx y IHy|mn mx x IHx]; cbn [den]; intros i j H.
  - lia.
  - lia.
  - lia.
  - destruct H as (k & H1 & H2). apply IHx in H1. apply IHy in H2. lia.
  - destruct H; auto.
  - destruct H as (n & H & _). revert i H. induction n as [|n IHn]; cbn; intros i H; [lia|].
    destruct H as (k & H1 & H2). apply IHx in H1. apply IHn in H2. lia.
Qed.

Lemma times_le x n i j : times (den x) n i j -> (i <= j)%nat.
Proof.
  revert i. induction n as [|n IHn]; cbn; intros i H; [lia|].
  destruct H as (k & H1 & H2). apply den_le in H1. apply IHn in H2. lia.
Qed.

Lemma null_complete r i : masks r -> simple r -> plain r -> den r i i -> null r = true /\ chk (emp r) i.
Proof.
  induction r as [|a|l|x IHx y IHy|x IHx y IHy|mn mx x IHx]; cbn [null emp den masks simple plain];
    intros M S0 Pl H.
  - split; [reflexivity|apply chk_0].
  - tauto.
  - lia.
  - destruct H as (k & H1 & H2). pose proof (den_le _ _ _ H1). pose proof (den_le _ _ _ H2).
    assert (k = i) by lia. subst k. destruct M, S0, Pl. destruct IHx; auto. destruct IHy; auto.
    split; [apply andb_true_iff; auto|apply chk_lor; auto].
  - destruct M, S0, Pl as (P1 & P2 & P3). destruct H as [H|H].
    + destruct IHx as [N C]; auto. rewrite N. auto.
    + destruct IHy as [N C]; auto. rewrite N, orb_true_r. split; [reflexivity|].
      destruct (null x) eqn:Nx; [|exact C]. rewrite P3 by auto. apply chk_0.
  - destruct S0 as (Hmn & Hmx & S1). destruct Pl as [P1 P2]. destruct H as (n & H & Hn & _).
    destruct (null x) eqn:Nx.
    + rewrite orb_true_r. split; [reflexivity|]. rewrite P2 by reflexivity. apply chk_0.
    + split; [|apply chk_0]. rewrite orb_false_r. apply Z.eqb_eq. destruct Hmn as [|Hmn]; [assumption|exfalso].
      destruct n as [|n]; [lia|]. destruct H as (k & H1 & H2).
      assert (k = i); [|subst k; destruct IHx; auto; congruence].
      pose proof (den_le _ _ _ H1). pose proof (times_le _ _ _ _ H2). lia.
Qed.

Lemma acc_complete r :
  masks r -> simple r -> apart r -> nonneg r -> plain r -> forall i j, den r i j -> (i < j)%nat -> acc r i j.
Proof.
  induction r as [|a|l|x IHx y IHy|x IHx y IHy|mn mx x IHx]; intros M S0 A NN Pl i j H L.
  - cbn in H. lia.
  - cbn in H. lia.
  - destruct H as [-> (c & C & Ha)]. eexists _, i, (l_pos l), _. cbn [first last].
    split; [left; reflexivity|]. split; [apply chk_0|]. split; [apply p_nil|]. split; [left; reflexivity|].
    split; [reflexivity|]. split; [|reflexivity]. exists c. split; [exact C|]. split; [exact Ha|apply chk_0].
  - destruct H as (k & H1 & H2). destruct M as [M1 M2], S0 as [S1 S2], A as (A1 & A2 & D), NN as [N1 N2], Pl as [P1 P2].
    pose proof (den_le _ _ _ H1). pose proof (den_le _ _ _ H2).
    destruct (Nat.eq_dec i k) as [<-|Nik].
    + destruct (null_complete x i M1 S1 P1 H1) as [Nx Cx].
      destruct (IHy M2 S2 A2 N2 P2 i j H2 L) as (f & m & p & e & If & Cf & P & Ie & Pe & He & Ej).
      exists {| e_pos := e_pos f; e_lo := e_lo f; e_hi := e_hi f; e_cls := e_cls f; e_neg := e_neg f;
                e_as := Z.lor (e_as f) (emp x) |}, m, p, e.
      cbn [first last trans]. rewrite Nx.
      split; [apply in_union; left; exists f; cbn; auto 10|]. split; [cbn; apply chk_lor; auto|].
      split; [cbn; eapply path_incl; [|exact P]; intros t It; rewrite !in_app_iff; auto|].
      split; [destruct (null y); [apply in_union; auto|auto]|]. auto.
    + destruct (IHx M1 S1 A1 N1 P1 i k H1 ltac:(lia)) as (f & m & p & e & If & Cf & P & Ie & Pe & He & Ek).
      assert (Ff : In f (first (Cat x y))).
      { cbn. destruct (null x); [apply in_union; auto|auto]. }
      destruct (Nat.eq_dec k j) as [<-|Nkj].
      * destruct (null_complete y k M2 S2 P2 H2) as [Ny Cy].
        exists f, m, p, {| e_pos := e_pos e; e_lo := e_lo e; e_hi := e_hi e; e_cls := e_cls e; e_neg := e_neg e;
                e_as := Z.lor (e_as e) (emp y) |}.
        split; [exact Ff|]. split; [exact Cf|]. cbn [last trans]. rewrite Ny.
        split; [eapply path_incl; [|exact P]; intros t It; rewrite !in_app_iff; auto|].
        split; [apply in_union; left; exists e; cbn; auto 10|]. split; [exact Pe|].
        split; [|exact Ek]. eapply ends_or with (e1 := e) (a := emp y); cbn; auto. rewrite <- Ek. auto.
      * destruct (IHy M2 S2 A2 N2 P2 k j H2 ltac:(lia)) as (f' & m' & p' & e' & If' & Cf' & P' & Ie' & Pe' & He' & Ej).
        destruct (make_complete (last x) (first y) e f' Ie If') as (g & G1 & G2 & G3 & G4).
        { apply (pos_nonneg y); [exact N2|apply first_pos; exact If']. }
        { apply first_coherent. exact A2. }
        exists f, m', p', e'. split; [exact Ff|]. split; [exact Cf|].
        split; [|split; [cbn; destruct (null y); [apply in_union; auto|auto]|auto]].
        cbn [trans]. apply path_app with (k := m) (q := p).
        { eapply path_incl; [|exact P]. intros t It. rewrite !in_app_iff. auto. }
        apply p_cons with (t := mk e g).
        { rewrite in_app_iff. auto. }
        { cbn. exact Pe. }
        { apply takes_mk; [apply (last_ok x); auto|apply (first_ok y); auto|]. split; [exact He|].
          rewrite G2, <- Ek. exact Cf'. }
        cbn. rewrite G1, <- Ek. eapply path_incl; [|exact P']. intros t It. rewrite !in_app_iff. auto.
  - destruct A as [[b B]|(A1 & A2 & D)].
    + destruct (bracket_den b _ B i j H) as (-> & e & Ie & Pe & He).
      destruct (bracket_first_some b _ B) as [f If]. destruct (bracket_first b _ B f If) as [Pf Af].
      exists f, i, b, e. split; [exact If|]. split; [rewrite Af; apply chk_0|].
      split; [rewrite Pf; apply p_nil|]. auto.
    + destruct M as [M1 M2], S0 as [S1 S2], NN as [N1 N2], Pl as (P1 & P2 & _). destruct H as [H|H].
      * destruct (IHx M1 S1 A1 N1 P1 i j H L) as (f & m & p & e & If & Cf & P & Ie & Pe & He & Ek).
        exists {| e_pos := e_pos f; e_lo := e_lo f; e_hi := e_hi f; e_cls := e_cls f; e_neg := e_neg f;
                  e_as := Z.lor (e_as f) 0 |}, m, p,
               {| e_pos := e_pos e; e_lo := e_lo e; e_hi := e_hi e; e_cls := e_cls e; e_neg := e_neg e;
                  e_as := Z.lor (e_as e) 0 |}.
        cbn [first last trans].
        split; [apply in_union; left; exists f; cbn; auto 10|]. split; [cbn; apply chk_lor; split; [auto|apply chk_0]|].
        split; [cbn; eapply path_incl; [|exact P]; intros t It; rewrite in_app_iff; auto|].
        split; [apply in_union; left; exists e; cbn; auto 10|]. split; [exact Pe|].
        split; [|exact Ek]. eapply ends_or with (e1 := e) (a := 0); cbn; auto. split; [exact He|apply chk_0].
      * destruct (IHy M2 S2 A2 N2 P2 i j H L) as (f & m & p & e & If & Cf & P & Ie & Pe & He & Ek).
        exists f, m, p, e. cbn [first last trans].
        split; [apply in_union; auto|]. split; [exact Cf|].
        split; [eapply path_incl; [|exact P]; intros t It; rewrite in_app_iff; auto|].
        split; [apply in_union; auto|]. auto.
  - destruct S0 as (Hmn & Hmx & S1). destruct Pl as [P1 P2]. cbn [apart nonneg masks] in *.
    destruct H as (n & H & _ & Hn). destruct (Z.eqb_spec mx (-1)) as [->|Nmx].
    + clear Hn. revert i H L. induction n as [|n IHn]; cbn [times]; intros i H L; [lia|].
      destruct H as (k & H1 & H2). pose proof (den_le _ _ _ H1).
      destruct (Nat.eq_dec i k) as [<-|Nik]; [auto|].
      destruct (IHx M S1 A NN P1 i k H1 ltac:(lia)) as (f & m & p & e & If & Cf & P & Ie & Pe & He & Ek).
      pose proof (times_le _ _ _ _ H2) as kj.
      destruct (Nat.eq_dec k j) as [<-|Nkj].
      * exists f, m, p, e. cbn [first last trans]. split; [exact If|]. split; [exact Cf|].
        split; [eapply path_incl; [|exact P]; intros t It; rewrite in_app_iff; auto|]. auto.
      * destruct (IHn k H2 ltac:(lia)) as (f' & m' & p' & e' & If' & Cf' & P' & Ie' & Pe' & He' & Ej).
        cbn [first last] in If', Ie'.
        destruct (make_complete (last x) (first x) e f' Ie If') as (g & G1 & G2 & G3 & G4).
        { apply (pos_nonneg x); [exact NN|apply first_pos; exact If']. }
        { apply first_coherent. exact A. }
        exists f, m', p', e'. split; [exact If|]. split; [exact Cf|].
        split; [|auto].
        cbn [trans]. rewrite Z.eqb_refl. apply path_app with (k := m) (q := p).
        { eapply path_incl; [|exact P]. intros t It. rewrite in_app_iff. auto. }
        apply p_cons with (t := mk e g).
        { rewrite in_app_iff. auto. }
        { cbn. exact Pe. }
        { apply takes_mk; [apply (last_ok x); auto|apply (first_ok x); auto|]. split; [exact He|].
          rewrite G2, <- Ek. exact Cf'. }
        cbn [mk t_dst]. rewrite G1, <- Ek. exact P'.
    + assert (mx = 1) by tauto. subst mx. destruct Hn as [Hn|Hn]; [discriminate|].
      destruct n as [|[|n]]; [cbn in H; lia| |lia].
      destruct H as (k & H1 & H2). cbn in H2. subst k.
      destruct (IHx M S1 A NN P1 i j H1 L) as (f & m & p & e & If & Cf & P & Ie & Pe & He & Ek).
      exists f, m, p, e. cbn [first last trans]. split; [exact If|]. split; [exact Cf|].
      split; [eapply path_incl; [|exact P]; intros t It; rewrite in_app_iff; auto|]. auto.
Qed.

End Meaning.
