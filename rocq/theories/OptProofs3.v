(** * Options: protection, and what conf leaves *)
From Coq Require Import ZArith List Bool Lia SpecFloat.
Import ListNotations.
Require Import Verif.Bits Verif.StrModel Verif.NumModel Verif.OpsModel Verif.OpsProofs Verif.MiscModel Verif.OptModel Verif.OptSpec Verif.OptProofs Verif.OptProofs2.
Local Open Scope Z_scope.
Local Notation str := (list Z).

Lemma wf_pair l s t : wf_all l -> In s l -> In t l -> s = t \/ (sname s <> sname t /\ apart s t).
Proof.
  induction l as [|u l IH]; intros W Hs Ht; [contradiction|]. inversion W as [|? ? W1 W2 W3 W4]; subst. rewrite Forall_forall in W4. destruct Hs as [->|Hs], Ht as [->|Ht]; auto.
  - right. destruct (W4 t Ht) as [N A]. auto.
  - right. destruct (W4 s Hs) as [N A]. split; [exact N|]. intros i I J. exact (A i J I).
Qed.
Lemma apart_at a s t i : apart s t -> inside a s i -> ~ inside a t i.
Proof. intros A I J. apply (A (i - a)); unfold inside in *; lia. Qed.
Lemma guarded_inside c a h l i : wf (Sub h l) -> guarded c (a + off h) l i -> inside a (Sub h l) i.
Proof.
  intros W G. remember (a + off h) as b eqn:E. revert a h E W. induction G as [b l s i I P X|b l h' l' i I G IH]; intros a h E W; inversion W as [|? ? W1 W2 W3|]; subst.
  - eapply inside_child; [eapply wf_all_in; eassumption|exact I|exact X].
  - pose proof (wf_all_in _ _ W3 I) as W4. specialize (IH (a + off h) h' eq_refl W4). eapply inside_child; eassumption.
Qed.
Section P.
Context (junk : Z) (c : cfg).
Lemma spares_members l ms : (fix go (ms : list (str * val)) : Prop := match ms with [] => True | (k, v) :: r => (match find l k with Some t => spares v t | None => True end) /\ go r end) ms <->
  Forall (fun kv => forall t, find l (fst kv) = Some t -> spares (snd kv) t) ms.
Proof.
  induction ms as [|[k v] r IH]; [split; [constructor|auto]|]. rewrite IH. split.
  - intros [A B]. constructor; [|exact B]. cbn [fst snd]. intros t X. rewrite X in A. exact A.
  - intros H. inversion H as [|? ? H1 H2]; subst. split; [|exact H2]. cbn in H1. destruct (find l k); [now apply H1|exact Logic.I].
Qed.
Theorem protected_kept : forall v h l f m a, wf (Sub h l) -> update f = true -> spares v (Sub h l) ->
  keep (guarded c (a + off h) l) m (set_option junk c v f m a (Sub h l)).
Proof.
  apply (val_rec' (fun v => forall h l f m a, wf (Sub h l) -> update f = true -> spares v (Sub h l) -> keep (guarded c (a + off h) l) m (set_option junk c v f m a (Sub h l))));
    try (intros; cbn [set_option]; apply keep_same).
  - intros h l f m a W U S. destruct S.
  - intros ms IH h l f m a W U S. cbn [set_option]. cbn [spares] in S. apply (proj1 (spares_members l ms)) in S. inversion W as [|? ? W1 W2 W3|]; subst.
    apply process_keep; [now left|apply Forall_forall; intros s I; eapply wf_all_in; eassumption|]. apply Forall_forall. intros [k v] I s m' F RF. cbn [fst snd].
    rewrite Forall_forall in IH, S. specialize (IH _ I). specialize (S _ I s F). cbn [snd] in IH, S. pose proof (find_member _ _ _ F) as M. pose proof (wf_all_in _ _ W3 M) as Ws.
    intros m'' LB i Hi.
    inversion Hi as [? ? t ? I1 P1 X1|? ? h' l' ? I1 G1]; subst.
    + destruct (wf_pair l t s W3 I1 M) as [->|[_ A]].
      * exfalso. unfold refused in RF. rewrite U in RF. unfold protected in P1. apply orb_false_elim in RF as [RF R3]. apply orb_false_elim in RF as [R1 R2]. cbn in R2. rewrite andb_true_r in R3.
          destruct P1 as [P1|[P1|[P1 P2]]]; [congruence|congruence|]. rewrite P1, P2 in R3. discriminate.
      * apply (set_option_only junk c v f s m' (a + off h) Ws m'' LB). now apply (apart_at _ t s).
    + pose proof (wf_all_in _ _ W3 I1) as W4. destruct (wf_pair l _ s W3 I1 M) as [<-|[_ A]].
      * apply (IH h' l' f m' (a + off h) W4 U S m'' LB). auto.
      * apply (set_option_only junk c v f s m' (a + off h) Ws m'' LB). apply (apart_at _ (Sub h' l') s); [exact A|]. now apply guarded_inside with (c := c).
Qed.
End P.

(** ** What reading depends on *)
Lemma cstring_ext n : forall m m' a, (forall i, a <= i < a + Z.of_nat n -> m i = m' i) -> cstring m a n = cstring m' a n.
Proof.
  induction n as [|n IH]; intros m m' a H; [reflexivity|]. cbn [cstring]. rewrite (H a) by lia. rewrite (IH m m' (a + 1)) by (intros; apply H; lia). reflexivity.
Qed.
Definition set_size (s : spec) : Prop := match s with Leaf h (LBitset _ _) => 4 <= size h | _ => True end.
Lemma get_leaf_ext h k m m' a : wf (Leaf h k) -> set_size (Leaf h k) -> (forall i, inside a (Leaf h k) i -> m i = m' i) ->
  get_leaf m (a + off h) (size h) k = get_leaf m' (a + off h) (size h) k.
Proof.
  intros W SS H. unfold inside in H. cbn [hd_of] in H. inversion W as [? ? O L| |]; subst.
  destruct k as [|n sg| | |c|names nc ex un|names nc]; cbn [get_leaf extent set_size] in *.
  - now rewrite H by lia.
  - unfold load_int. now rewrite (load_ext n m m') by (intros; apply H; lia).
  - now rewrite H by lia.
  - rewrite (cstring_ext _ m m'); [reflexivity|]. intros i Hi. apply H. lia.
  - now rewrite H by lia.
  - rewrite L. destruct (good_size_nat _ L) as (S1 & S2 & _). unfold load_int. rewrite (load_ext (Z.to_nat (size h)) m m') by (intros; apply H; lia). reflexivity.
  - unfold load_int. rewrite (load_ext 4 m m') by (intros; apply H; lia). reflexivity.
Qed.

(** ** Setting a single option *)
Section Take.
Context (junk : Z).
Lemma wrap_small b v : 0 < b -> - 2 ^ (b - 1) <= v < 2 ^ (b - 1) -> wrap b v = v.
Proof.
  intros B H. unfold wrap. assert (P : 2 ^ b = 2 * 2 ^ (b - 1)) by (rewrite <- Z.pow_succ_r by lia; f_equal; lia). rewrite P. set (q := 2 ^ (b - 1)) in *. clearbody q.
  replace (2 * q / 2) with q by (rewrite Z.mul_comm, Z.div_mul by lia; reflexivity).
  destruct (Z_lt_le_dec v 0) as [L|L].
  - replace (v mod (2 * q)) with (v + 2 * q) by (apply (Z.mod_unique v (2 * q) (-1)); [left; lia|lia]). destruct (Z.ltb_spec (v + 2 * q) q); lia.
  - rewrite Z.mod_small by lia. destruct (Z.ltb_spec v q); lia.
Qed.
Lemma pow_le a b : 0 <= a <= b -> 2 ^ a <= 2 ^ b.
Proof. intros H. apply Z.pow_le_mono_r; lia. Qed.
Lemma cstring_put m s : text_bytes s -> forall a n, (length s < n)%nat -> cstring (put_list m a (map CByte (s ++ [0]))) a n = Done s.
Proof.
  revert m. induction s as [|c s IH]; intros m T a n Hn; destruct n as [|n]; cbn [length] in Hn; try lia.
  - cbn [app map put_list cstring]. unfold put. now rewrite Z.eqb_refl.
  - inversion T; subst. cbn [app map put_list cstring]. rewrite put_list_out by lia. replace (put m a (CByte c) a) with (CByte c) by (unfold put; now rewrite Z.eqb_refl). cbn [byte_of]. destruct (Z.eqb_spec c 0); [lia|].
    rewrite IH by (auto; lia). reflexivity.
Qed.
Lemma enum_name_nth l : forall n, enum_name l (Z.of_nat n) = match nth_error l n with Some s => Done s | None => Fail end.
Proof. induction l as [|s l IH]; intros [|n]; try reflexivity. cbn [enum_name nth_error]. destruct (Z.leb_spec (Z.of_nat (S n)) 0); [lia|]. rewrite <- IH. f_equal. lia. Qed.
Theorem leaf_takes h k v w m a : wf (Leaf h k) -> takes k (size h) v w ->
  exists m', set_leaf junk m a (size h) k (Some v) = Ok m' /\ get_leaf m' a (size h) k = Done w.
Proof.
  intros W T. inversion W as [? ? O L| |]; subst. inversion T as [z b|k' sg z x n I R R2|z x NN|z s LN TB|z|c z|c z v' NV C|names nc ex un z s n name G N B]; subst.
  - eexists. split; [reflexivity|]. cbn [get_leaf]. unfold put. rewrite Z.eqb_refl. destruct b; reflexivity.
  - assert (K : (0 < k')%nat /\ Z.of_nat k' <= 8) by (cbn in L; intuition lia). destruct K as [K1 K2].
    assert (R63 : - 2 ^ 63 <= n < 2 ^ 63). { pose proof (pow_le (8 * Z.of_nat k' - 1) 63 ltac:(lia)). unfold int_range in R. destruct sg; lia. }
    assert (TW : to_wide x = n) by (apply to_wide_part; [exact I|lia]).
    assert (CK : wrap 64 (if sg then wrap (8 * Z.of_nat k') n else n mod 2 ^ (8 * Z.of_nat k')) = n).
    { unfold int_range in R. destruct sg; [rewrite (wrap_small (8 * Z.of_nat k')) by lia|rewrite Z.mod_small by lia]; apply wrap_small; lia. }
    eexists. cbn [set_leaf]. rewrite TW, CK, Z.eqb_refl. split; [reflexivity|]. cbn [get_leaf]. now rewrite load_store_int.
  - eexists. cbn [set_leaf]. destruct (is_nan x) eqn:NA; [destruct x; try discriminate; now destruct NN|]. split; [reflexivity|]. cbn [get_leaf]. now rewrite store_cell_at.
  - eexists. cbn [set_leaf]. destruct (Z.ltb_spec (size h - 1) (Z.of_nat (length s))); [lia|]. split; [reflexivity|]. cbn [get_leaf]. rewrite cstring_put; [reflexivity|exact TB|lia].
  - eexists. split; [reflexivity|]. cbn [get_leaf]. destruct (Z.to_nat (size h)) eqn:E; [lia|]. cbn [cstring]. unfold put. now rewrite Z.eqb_refl.
  - eexists. split; [reflexivity|]. cbn [get_leaf]. now rewrite store_cell_at.
  - assert (CO : class_ok c w = true). { destruct c; cbn; auto; try (destruct C as [? ->]; reflexivity). destruct C as [[? ->]|[[? ->]|[[? ->]|[? ->]]]]; reflexivity. }
    exists (store_cell m a (CVal (Some w))). split; [|cbn [get_leaf]; now rewrite store_cell_at]. destruct w; try (now destruct NV); cbn [set_leaf]; now rewrite CO.
  - destruct (good_size_nat _ L) as (S1 & S2 & S3). eexists. cbn [set_leaf]. rewrite G, L. split; [reflexivity|]. cbn [get_leaf]. rewrite L.
    assert (IR : int_range (Z.to_nat (size h)) (negb un || (size h =? 8)) (Z.of_nat n)).
    { pose proof (pow_le 7 (8 * Z.of_nat (Z.to_nat (size h)) - 1) ltac:(lia)). pose proof (pow_le 8 (8 * Z.of_nat (Z.to_nat (size h))) ltac:(lia)). unfold int_range. destruct (_ || _); lia. }
    rewrite load_store_int by (try exact IR; lia). rewrite enum_name_nth, N. reflexivity.
Qed.
End Take.
