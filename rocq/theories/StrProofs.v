(** Searching, splitting, joining. *)
From Coq Require Import ZArith List Bool Lia.
Import ListNotations.
From Verif Require Import Bits CodecSpec UtfModel StrModel StrSpec.
Local Open Scope Z_scope.

Lemma prefixb_iff : forall p s, prefixb p s = true <-> exists r, s = p ++ r.
Proof.
  induction p as [|a p IH]; intros [|b s]; simpl.
  - split; eauto. - split; eauto.
  - split; [discriminate | intros (r & H); discriminate].
  - rewrite andb_true_iff, Z.eqb_eq, IH. split.
    + intros (-> & r & ->). eauto.
    + intros (r & H). injection H as -> ->. eauto.
Qed.

Lemma prefix_occurs : forall p s, prefixb p s = true <-> occurs_at p s 0.
Proof.
  intros p s. rewrite prefixb_iff. split.
  - intros (r & ->). exists [], r. auto.
  - intros (a & b & -> & H). destruct a; [exists b; auto | discriminate].
Qed.
Lemma occurs_S : forall p c s i, occurs_at p (c :: s) (S i) <-> occurs_at p s i.
Proof.
  intros p c s i. split.
  - intros (a & b & H & L). destruct a as [|x a]; [discriminate|]. injection H as -> ->.
    exists a, b. split; auto.
  - intros (a & b & -> & L). exists (c :: a), b. simpl. auto.
Qed.
Lemma occurs_le : forall p s i, occurs_at p s i -> (i + length p <= length s)%nat.
Proof. intros p s i (a & b & -> & <-). rewrite !app_length. lia. Qed.
Lemma occurs_skipn : forall p s i k, occurs_at p (skipn k s) i -> (k <= length s)%nat -> occurs_at p s (k + i).
Proof.
  intros p s i k (a & b & H & L) Hk. exists (firstn k s ++ a), b. split.
  - rewrite <- app_assoc, <- H. symmetry. apply firstn_skipn.
  - rewrite app_length, firstn_length. lia.
Qed.
Lemma occurs_skipn_inv : forall p s i k, occurs_at p s (k + i) -> occurs_at p (skipn k s) i.
Proof.
  intros p s i k; revert s i. induction k; intros s i H; simpl; auto.
  destruct s as [|c s].
  - destruct H as (a & b & H & L). symmetry in H. apply app_eq_nil in H. destruct H as [-> _]. simpl in L. lia.
  - apply IHk. apply (proj1 (occurs_S p c s (k + i))). exact H.
Qed.

(** strstr finds the first occurrence *)
Lemma strstr_some : forall s p k, strstr s p = Some k ->
  occurs_at p s k /\ (forall i, occurs_at p s i -> (k <= i)%nat).
Proof.
  induction s as [|c s IH]; intros p k; simpl.
  - destruct (prefixb p []) eqn:E; [|discriminate]. intros H; injection H as <-.
    apply prefix_occurs in E. split; auto. intros; lia.
  - destruct (prefixb p (c :: s)) eqn:E.
    + intros H; injection H as <-. apply prefix_occurs in E. split; auto. intros; lia.
    + destruct (strstr s p) as [k'|] eqn:F; simpl; [|discriminate]. intros H; injection H as <-.
      destruct (IH p k' F) as [A B]. split; [apply occurs_S; auto|].
      intros [|i] Hi.
      * apply prefix_occurs in Hi. congruence.
      * pose proof (B i (proj1 (occurs_S p c s i) Hi)). lia.
Qed.
Lemma strstr_none : forall s p, strstr s p = None -> forall i, ~ occurs_at p s i.
Proof.
  induction s as [|c s IH]; intros p; simpl.
  - destruct (prefixb p []) eqn:E; [discriminate|]. intros _ i Hi.
    assert (i = O). { apply occurs_le in Hi. simpl in Hi. lia. } subst.
    apply prefix_occurs in Hi. congruence.
  - destruct (prefixb p (c :: s)) eqn:E; [discriminate|].
    destruct (strstr s p) eqn:F; simpl; [discriminate|]. intros _ [|i] Hi.
    + apply prefix_occurs in Hi. congruence.
    + exact (IH p F i (proj1 (occurs_S p c s i) Hi)).
Qed.
Lemma strstr_complete : forall s p i, occurs_at p s i -> exists k, strstr s p = Some k /\ (k <= i)%nat.
Proof.
  intros s p i H. destruct (strstr s p) as [k|] eqn:E.
  - exists k. split; auto. exact (proj2 (strstr_some _ _ _ E) i H).
  - exfalso. exact (strstr_none _ _ E i H).
Qed.

(** The separators of a finder *)
Definition is_sep (f : finder) (m : list Z) : Prop :=
  match f with
  | OnString sep => m = sep
  | OnByte c => m = [c]
  | OnSpace => exists c, m = [c] /\ isspace c = true
  end.
Definition finder_ok (f : finder) : Prop :=
  match f with OnString sep => sep <> [] | _ => True end.

Lemma find_byte_occ : forall f s k, find_byte f s = Some k ->
  exists a c r, s = a ++ c :: r /\ length a = k /\ f c = true /\ forallb (fun x => negb (f x)) a = true.
Proof.
  induction s as [|c s IH]; simpl; intros k H; [discriminate|].
  destruct (f c) eqn:E.
  - injection H as <-. exists [], c, s. auto.
  - destruct (find_byte f s) as [k'|] eqn:F; simpl in H; [|discriminate]. injection H as <-.
    destruct (IH k' eq_refl) as (a & d & r & -> & L & Hd & Ha).
    exists (c :: a), d, r. simpl. rewrite E, Ha. auto.
Qed.
Lemma find_byte_none : forall f s, find_byte f s = None -> forallb (fun x => negb (f x)) s = true.
Proof.
  induction s as [|c s IH]; simpl; intros H; auto.
  destruct (f c) eqn:E; [discriminate|]. destruct (find_byte f s); [discriminate|]. simpl. auto.
Qed.
Lemma one_occ : forall (x : Z) s i, occurs_at [x] s i -> nth_error s i = Some x.
Proof. intros x s i (a & b & -> & <-). rewrite nth_error_app2, Nat.sub_diag; auto. Qed.

Lemma find_sep_some : forall f s k, find_sep f s = Some k -> finder_ok f ->
  exists a m r, s = a ++ m ++ r /\ length a = k /\ is_sep f m /\ m <> [] /\ length m = sep_len f /\
    (forall m' i, is_sep f m' -> occurs_at m' s i -> (k <= i)%nat).
Proof.
  intros f s k H Hok. destruct f as [sep|c|]; simpl in *.
  - destruct (strstr_some _ _ _ H) as [(a & r & Hs & L) B].
    exists a, sep, r. repeat split; auto. intros m' i -> Hi. auto.
  - destruct (find_byte_occ _ _ _ H) as (a & d & r & -> & L & Hd & Ha).
    apply Z.eqb_eq in Hd. subst d. exists a, [c], r. repeat split; auto; [discriminate|].
    intros m' i -> Hi. apply one_occ in Hi. destruct (Nat.lt_ge_cases i k) as [Hlt|]; auto.
    rewrite nth_error_app1 in Hi by lia. apply nth_error_In in Hi.
    rewrite forallb_forall in Ha. apply Ha in Hi. rewrite Z.eqb_refl in Hi. discriminate.
  - destruct (find_byte_occ _ _ _ H) as (a & d & r & -> & L & Hd & Ha).
    exists a, [d], r. repeat split; eauto; [discriminate|].
    intros m' i (c & -> & Hc) Hi. apply one_occ in Hi. destruct (Nat.lt_ge_cases i k) as [Hlt|]; auto.
    rewrite nth_error_app1 in Hi by lia. apply nth_error_In in Hi.
    rewrite forallb_forall in Ha. apply Ha in Hi. rewrite Hc in Hi. discriminate.
Qed.
Lemma find_sep_none : forall f s, find_sep f s = None -> forall m, is_sep f m -> ~ occurs m s.
Proof.
  intros f s H m Hm (i & Hi). destruct f as [sep|c|]; simpl in *.
  - subst. exact (strstr_none _ _ H i Hi).
  - subst. apply find_byte_none in H. apply one_occ, nth_error_In in Hi.
    rewrite forallb_forall in H. apply H in Hi. rewrite Z.eqb_refl in Hi. discriminate.
  - destruct Hm as (c & -> & Hc). apply find_byte_none in H. apply one_occ, nth_error_In in Hi.
    rewrite forallb_forall in H. apply H in Hi. rewrite Hc in Hi. discriminate.
Qed.

(** Blocks *)
Lemma skipn_pre : forall (A : Type) (a b : list A), skipn (length a) (a ++ b) = b.
Proof. induction a; simpl; auto. Qed.
Lemma skipn_pre' : forall (A : Type) (a b : list A) n, skipn (length a + n) (a ++ b) = skipn n b.
Proof. induction a; simpl; auto. Qed.
Definition nonul (s : list Z) : Prop := Forall (fun b => b <> 0) s.
Lemma c_string_app : forall s t, nonul s -> c_string (s ++ 0 :: t) = Some s.
Proof.
  induction s as [|c s IH]; simpl; intros t H; auto.
  inversion H; subst. destruct (Z.eqb_spec c 0); [contradiction|]. rewrite IH; auto.
Qed.
Lemma poke_app : forall a x r c, poke (a ++ x :: r) (length a) c = Some (a ++ c :: r).
Proof. induction a; simpl; intros; auto. rewrite IHa. reflexivity. Qed.

Lemma nonul_app : forall a b, nonul (a ++ b) <-> nonul a /\ nonul b.
Proof. intros. apply Forall_app. Qed.

Lemma split_loops : forall f, finder_ok f -> forall fuel s, (length s < fuel)%nat -> nonul s ->
  exists n l, count_seps fuel f s = Some n /\ cut (is_sep f) s l /\ length l = S n /\
    forall pre argv, exists t offs,
      split_loop fuel f (pre ++ s ++ [0]) (length pre) n argv = Done (pre ++ t ++ [0], argv ++ offs) /\
      length offs = n /\ read_all (pre ++ t ++ [0]) (length pre :: offs) = Done l.
Proof.
  intros f Hok. induction fuel as [|fuel IH]; intros s Hlen Hs; [lia|].
  assert (Hat : forall pre, string_at (pre ++ s ++ [0]) (length pre) = Some s).
  { intros pre. unfold string_at. rewrite skipn_pre. apply c_string_app; auto. }
  destruct (find_sep f s) as [k|] eqn:E.
  2:{ exists O, [s]. split; [|split; [|split]].
      - simpl. rewrite E. destruct s; auto.
      - constructor. apply find_sep_none; auto.
      - reflexivity.
      - intros pre argv. exists s, []. cbn [split_loop]. rewrite Hat, E, app_nil_r.
        split; [destruct s; reflexivity|]. split; [reflexivity|]. cbn [read_all].
        rewrite Hat. reflexivity. }
  destruct (find_sep_some _ _ _ E Hok) as (a & m & r & -> & Lk & Hm & Hne & Lm & Hfirst).
  destruct m as [|m0 m]; [contradiction|].
  apply nonul_app in Hs. destruct Hs as [Ha Hs]. apply nonul_app in Hs. destruct Hs as [Hmn Hr].
  destruct (IH r) as (n & l & Hc & Hcut & Hll & Hloop); auto.
  { rewrite !app_length in Hlen. simpl in Hlen. lia. }
  assert (Hsk : skipn k (a ++ (m0 :: m) ++ r) = m0 :: m ++ r) by (subst k; apply skipn_pre).
  assert (Hsk2 : skipn (sep_len f) (m0 :: m ++ r) = r).
  { rewrite <- Lm. change (m0 :: m ++ r) with ((m0 :: m) ++ r). apply skipn_pre. }
  exists (S n), (a :: l). split; [|split; [|split]].
  - cbn [count_seps]. rewrite E, Hsk, Hsk2, Hc.
    destruct (a ++ (m0 :: m) ++ r) eqn:Z0; [destruct a; discriminate|]. reflexivity.
  - apply cut_more; auto. intros m' i H1 H2. rewrite Lk. exact (Hfirst m' i H1 H2).
  - simpl. lia.
  - intros pre argv. cbn [split_loop]. rewrite Hat.
    destruct (a ++ (m0 :: m) ++ r) as [|z0 s0] eqn:Z0; [destruct a; discriminate|].
    rewrite E, Hsk, <- Z0.
    assert (Hpk : poke (pre ++ (a ++ (m0 :: m) ++ r) ++ [0]) (length pre + k) 0 =
                  Some ((pre ++ a ++ 0 :: m) ++ r ++ [0])).
    { replace (pre ++ (a ++ (m0 :: m) ++ r) ++ [0]) with ((pre ++ a) ++ m0 :: (m ++ r ++ [0]))
        by (rewrite <- !app_assoc; reflexivity).
      rewrite <- Lk, <- app_length, poke_app. rewrite <- !app_assoc. reflexivity. }
    rewrite Hpk.
    assert (Hcp : (length pre + k + sep_len f)%nat = length (pre ++ a ++ 0 :: m)).
    { rewrite !app_length, <- Lm, <- Lk. simpl. lia. }
    rewrite Hcp.
    destruct (Hloop (pre ++ a ++ 0 :: m) (argv ++ [length (pre ++ a ++ 0 :: m)])) as (t & offs & H1 & H2 & H3).
    exists (a ++ (0 :: m) ++ t), (length (pre ++ a ++ 0 :: m) :: offs).
    rewrite H1. split; [|split].
    + rewrite <- !app_assoc. simpl. rewrite <- ?app_assoc. reflexivity.
    + simpl. lia.
    + replace (pre ++ (a ++ (0 :: m) ++ t) ++ [0]) with ((pre ++ a ++ 0 :: m) ++ t ++ [0])
        by (rewrite <- !app_assoc; reflexivity).
      cbn [read_all] in H3 |- *. rewrite H3.
      assert (Hp : string_at ((pre ++ a ++ 0 :: m) ++ t ++ [0]) (length pre) = Some a).
      { unfold string_at. rewrite <- app_assoc, skipn_pre, <- app_assoc. simpl. apply c_string_app; auto. }
      rewrite Hp. reflexivity.
Qed.

Lemma split_with_ok : forall f s, finder_ok f -> nonul s ->
  exists l, split_with f s = Done l /\ cut (is_sep f) s l.
Proof.
  intros f s Hok Hs. unfold split_with.
  destruct (split_loops f Hok (S (length s)) s ltac:(lia) Hs) as (n & l & H1 & H2 & H3 & H4).
  destruct (H4 [] [O]) as (t & offs & E1 & E2 & E3).
  exists l. split; auto. rewrite H1. cbn [app length] in E1. rewrite E1. simpl length. rewrite E2, Nat.eqb_refl.
  exact E3.
Qed.

(** Properties of cut *)
Lemma cut_nonempty : forall Sep s l, cut Sep s l -> l <> [].
Proof. destruct 1; discriminate. Qed.
Lemma joined_cons : forall sep a l, l <> [] -> joined sep (a :: l) = a ++ sep ++ joined sep l.
Proof. intros. destruct l; [contradiction | reflexivity]. Qed.
Lemma cut_join : forall sep s l, cut (fun m => m = sep) s l -> joined sep l = s.
Proof.
  induction 1; [reflexivity|]. subst. rewrite joined_cons by (eapply cut_nonempty; eauto). congruence.
Qed.
Lemma cut_pieces : forall (Sep : list Z -> Prop) s l, cut Sep s l -> (forall m, Sep m -> m <> []) ->
  forall p m, In p l -> Sep m -> ~ occurs m p.
Proof.
  induction 1 as [s Hno | a m0 r l Hm Hf Hc IH]; intros Hne p m Hp HSm Ho.
  - destruct Hp as [<- | []]. exact (Hno m HSm Ho).
  - destruct Hp as [<- | Hp]; [|exact (IH Hne p m Hp HSm Ho)].
    destruct Ho as (i & x & y & -> & <-).
    assert (Hi : (length (x ++ m ++ y) <= length x)%nat).
    { apply (Hf m (length x) HSm). exists x, (y ++ m0 ++ r). split; auto. rewrite <- !app_assoc. reflexivity. }
    rewrite !app_length in Hi. destruct m; [exact (Hne [] HSm eq_refl) | simpl in Hi; lia].
Qed.
Lemma app_same_len : forall (A : Type) (a a' b b' : list A),
  a ++ b = a' ++ b' -> length a = length a' -> a = a' /\ b = b'.
Proof.
  induction a; intros [|] b b' H L; simpl in *; try discriminate; auto.
  injection H as -> H. injection L as L. destruct (IHa _ _ _ H L). subst. auto.
Qed.
Lemma cut_unique : forall sep, sep <> [] -> forall s l l', cut (fun m => m = sep) s l -> cut (fun m => m = sep) s l' -> l = l'.
Proof.
  intros sep Hne s l l' H. revert l'. induction H as [s Hno | a m r l -> Hf Hc IH]; intros l' H'.
  - inversion H' as [s' Hno' | a m r l0 -> Hf Hc]; subst; auto.
    exfalso. apply (Hno sep eq_refl). exists (length a), a, r. auto.
  - inversion H' as [s' Hno' | a' m r' l0 -> Hf' Hc' E]; subst.
    + exfalso. apply (Hno' sep eq_refl). exists (length a), a, r. auto.
    + assert (L : length a' = length a).
      { apply Nat.le_antisymm.
        - apply (Hf' sep (length a) eq_refl). rewrite E. exists a, r. auto.
        - apply (Hf sep (length a') eq_refl). rewrite <- E. exists a', r'. auto. }
      destruct (app_same_len _ _ _ _ _ E L) as [-> E2]. apply app_inv_head in E2. subst r'.
      f_equal. apply IH. auto.
Qed.
(** Joining strings that do not contain a one-byte separator, and splitting again *)
Lemma joined_cut : forall c l, l <> [] -> Forall (fun p => ~ In c p) l -> cut (fun m => m = [c]) (joined [c] l) l.
Proof.
  induction l as [|a l IH]; intros Hne Hl; [contradiction|].
  inversion Hl as [|? ? Ha Hl']; subst.
  destruct l as [|b l].
  - simpl. constructor. intros m -> (i & Hi). apply one_occ, nth_error_In in Hi. contradiction.
  - rewrite joined_cons by discriminate. apply cut_more; auto.
    + intros m' i -> Hi. apply one_occ in Hi. destruct (Nat.lt_ge_cases i (length a)) as [Hlt|]; auto.
      rewrite nth_error_app1 in Hi by lia. apply nth_error_In in Hi. contradiction.
    + apply IH; [discriminate | auto].
Qed.

Lemma join_cmd_ok : forall sep l, join_cmd (map Some l) sep = joined sep l.
Proof.
  intros sep l. unfold join_cmd. destruct l as [|a l]; [reflexivity|].
  cbn [map join_loop negb andb]. cbn [app].
  revert a. induction l as [|b l IH]; intros a; [simpl; apply app_nil_r|].
  rewrite joined_cons by discriminate. rewrite <- (IH b). cbn [map join_loop negb andb].
  destruct sep; reflexivity.
Qed.
