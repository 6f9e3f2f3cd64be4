(** * Options: what a call of conf does to the record *)
From Coq Require Import ZArith List Bool Lia SpecFloat.
Import ListNotations.
Require Import Verif.Bits Verif.StrModel Verif.NumModel Verif.OpsModel Verif.OpsProofs Verif.MiscModel Verif.OptModel Verif.OptSpec Verif.OptProofs Verif.OptProofs2 Verif.OptProofs3.
Local Open Scope Z_scope.
Local Notation str := (list Z).

(** ** Values an option does not take *)
Lemma small_wide x n : to_wide x = n -> - 2 ^ 63 < n -> integer_part x = Some n.
Proof.
  destruct x as [s|s| |s m e]; cbn [to_wide integer_part]; intros H L; try lia; [now subst|].
  destruct (frac m e) as [p q]. set (v := if s then _ else _) in *. destruct (Z.leb_spec (- 2 ^ 63) v), (Z.ltb_spec v (2 ^ 63)); cbn [andb] in H; try lia. now subst.
Qed.
Lemma wrap_range b v : 0 < b -> - 2 ^ (b - 1) <= wrap b v < 2 ^ (b - 1).
Proof.
  intros B. unfold wrap. assert (P : 2 ^ b = 2 * 2 ^ (b - 1)) by (rewrite <- Z.pow_succ_r by lia; f_equal; lia). rewrite P. assert (Q : 0 < 2 ^ (b - 1)) by (apply Z.pow_pos_nonneg; lia). set (q := 2 ^ (b - 1)) in *. clearbody q.
  replace (2 * q / 2) with q by (rewrite Z.mul_comm, Z.div_mul by lia; reflexivity). pose proof (Z.mod_pos_bound v (2 * q) ltac:(lia)). destruct (Z.ltb_spec (v mod (2 * q)) q); lia.
Qed.
(** The fields whose type takes what [takes] says: not the sets, not the 8-byte integers. *)
Definition plain (k : leaf) : Prop := match k with LInt k _ => k <> 8%nat | LBitset _ _ => False | LEnum names _ _ _ => (length names <= 128)%nat | _ => True end.
Definition clean (v : val) : Prop := match v with VStr s => text_bytes s | _ => True end.
Section Q.
Context (junk : Z) (c : cfg).
Lemma get_index_in ex nc names s n : get_index ex nc names s = Some n -> 0 <= n < Z.of_nat (length names).
Proof.
  assert (P1 : forall t i index, 0 <= i -> -1 <= index < i -> -1 <= fst (pass1 ex nc t s i index) < i + Z.of_nat (length t)).
  { induction t as [|x t IH]; intros i index I J; cbn [pass1 length]; [cbn [fst]; lia|].
    destruct (cond1 ex nc x s); [destruct (Z.ltb_spec index 0); [|cbn [fst]; lia]|].
    - specialize (IH (i + 1) i ltac:(lia) ltac:(lia)). lia.
    - specialize (IH (i + 1) index ltac:(lia) ltac:(lia)). lia. }
  assert (P2 : forall t i index r, 0 <= i -> -1 <= index < i -> MiscModel.pass2 t s i index = Some r -> -1 <= r < i + Z.of_nat (length t)).
  { induction t as [|x t IH]; intros i index r I J; cbn [MiscModel.pass2 length]; [intros H; injection H as <-; lia|].
    destruct (_ && _).
    - destruct (Z.ltb_spec index 0); [|discriminate]. destruct (_ =? _)%nat; [intros H'; injection H' as <-; lia|]. intros H'. apply IH in H'; lia.
    - intros H'. apply IH in H'; lia. }
  unfold get_index. specialize (P1 names 0 (-1) ltac:(lia) ltac:(lia)). destruct (pass1 ex nc names s 0 (-1)) as [index dup]. cbn [fst] in P1.
  destruct (Z.leb_spec 0 index); cbn [andb].
  - destruct dup; cbn [negb]; [|intros H'; injection H' as <-; lia]. destruct (ex && _); [discriminate|].
    destruct (MiscModel.pass2 names s 0 (-1)) as [r|] eqn:R; [|discriminate]. apply P2 in R; [|lia|lia]. destruct (Z.leb_spec 0 r); [|discriminate]. intros H'; injection H' as <-; lia.
  - destruct (ex && _); [discriminate|].
    destruct (MiscModel.pass2 names s 0 (-1)) as [r|] eqn:R; [|discriminate]. apply P2 in R; [|lia|lia]. destruct (Z.leb_spec 0 r); [|discriminate]. intros H'; injection H' as <-; lia.
Qed.
(** What is taken is in [takes]. *)
Theorem leaf_only_takes h k v m a m' : wf (Leaf h k) -> plain k -> clean v -> set_leaf junk m a (size h) k (Some v) = Ok m' -> exists w, takes k (size h) v w.
Proof.
  intros W PL CL H. inversion W as [? ? O L| |]; subst. destruct k as [|k sg| | |cl|names nc ex un|names nc]; cbn [set_leaf plain] in *.
  - destruct v; try discriminate. eexists. constructor.
  - destruct v; try discriminate. cbn zeta in H. set (n := to_wide x) in *. assert (K : (0 < k)%nat /\ Z.of_nat k <= 4) by (cbn in L; intuition lia). destruct K as [K1 K2].
    pose proof (pow_le (8 * Z.of_nat k - 1) 31 ltac:(lia)) as B1. pose proof (pow_le (8 * Z.of_nat k) 32 ltac:(lia)) as B2.
    destruct (Z.eqb_spec (wrap 64 (if sg then wrap (8 * Z.of_nat k) n else n mod 2 ^ (8 * Z.of_nat k))) n) as [E|]; [|discriminate].
    assert (R : int_range k sg n).
    { unfold int_range. destruct sg.
      - pose proof (wrap_range (8 * Z.of_nat k) n ltac:(lia)). rewrite wrap_small in E by lia. lia.
      - pose proof (Z.mod_pos_bound n (2 ^ (8 * Z.of_nat k)) ltac:(apply Z.pow_pos_nonneg; lia)). rewrite wrap_small in E by lia. lia. }
    eexists. apply t_int with (n := n); [apply small_wide; [reflexivity|]| |]; unfold int_range in R; fold n; destruct sg; try exact R; lia.
  - destruct v; try discriminate. cbn zeta in H. eexists. constructor. intros ->. discriminate.
  - destruct v; try discriminate; [eexists; constructor|]. destruct (Z.ltb_spec (size h - 1) (Z.of_nat (length s))); [discriminate|]. eexists. constructor; [lia|exact CL].
  - destruct v; try (eexists; constructor; fail);
      match type of H with (if class_ok _ ?v then _ else _) = _ => destruct (class_ok cl v) eqn:CO; [|discriminate] end; eexists; apply t_val; try discriminate;
      destruct cl; cbn in CO |- *; try discriminate; eauto 8.
  - destruct v; try discriminate. destruct (get_index ex nc names s) as [n|] eqn:G; [|discriminate]. pose proof (get_index_in _ _ _ _ _ G) as R.
    destruct (nth_error names (Z.to_nat n)) as [name|] eqn:N; [|apply nth_error_None in N; lia]. eexists. apply t_enum with (n := Z.to_nat n); [rewrite Z2Nat.id by lia; exact G|exact N|lia].
  - contradiction.
Qed.
(** A value that is refused leaves the record as it was, unless it is NaN in a double field. *)
Theorem leaf_refused h k v m a m' : set_leaf junk m a (size h) k (Some v) = Err m' -> (k = LNum -> v <> VNum S754_nan) -> m' = m.
Proof.
  intros H N. destruct k as [|k sg| | |cl|names nc ex un|names nc]; cbn [set_leaf] in H.
  - destruct v; try (now injection H); discriminate.
  - destruct v; try (now injection H). destruct (_ =? _); [discriminate|now injection H].
  - destruct v; try (now injection H). cbn zeta in H. destruct (is_nan x) eqn:X; [|discriminate]. destruct x; try discriminate. now destruct N.
  - destruct v; try (now injection H); try discriminate. destruct (_ <? _); [now injection H|discriminate].
  - destruct v; try discriminate; (destruct (class_ok _ _); [discriminate|now injection H]).
  - destruct v; try (now injection H). destruct (get_index _ _ _ _); [|now injection H]. destruct (good_size _); [discriminate|now injection H].
  - unfold set_bitset in H. destruct (good_size (size h)); cbn [negb] in H; [|now injection H].
    assert (F : forall b, match b with BGo x => Ok (store_int m a (Z.to_nat (size h)) x) | BErr => Err m | BUndef => Undef end = Err m' -> m' = m) by (intros [x| |] E; [discriminate|now injection E|discriminate]).
    destruct v; try (now injection H).
    + destruct (match s with c :: r => if c =? 61 then (true, r) else (false, s) | [] => (false, []) end) as [ass s1]. destruct s1 as [|x s1]; [now apply (F (BGo (if ass then 0 else load_u m a (Z.to_nat (size h)))))|].
      destruct (split_str (x :: s1) [44]) as [l| |]; try discriminate. now apply F in H.
    + now apply F in H.
    + destruct (bits_obj _ _ _ _); [discriminate|now injection H|discriminate].
Qed.

(** ** The members of an object *)
Lemma members_ok_inv f a specs k v s l2 : find specs k = Some s -> pass2 (hd_of s) = second f ->
  forall l1 m seen m', members c (set_option junk c) f a specs m (l1 ++ (k, v) :: l2) seen = Ok m' ->
  refused c f (hd_of s) = false /\ exists m1 m2 seen', set_option junk c v f m1 a s = Ok m2 /\ members c (set_option junk c) f a specs m2 l2 seen' = Ok m'.
Proof.
  intros F P2. induction l1 as [|[k1 v1] l1 IH]; intros m seen m'; cbn [app members].
  - rewrite F, P2, eqb_reflx. cbn [negb]. destruct (refused c f (hd_of s)); [discriminate|]. destruct (set_option junk c v f m a s) as [m2|m2|] eqn:E; try discriminate. intros H. split; [reflexivity|]. eauto 6.
  - destruct (find specs k1) as [t|]; [|destruct (_ || _); [apply IH|discriminate]]. destruct (negb (eqb _ _)); [apply IH|]. destruct (refused c f (hd_of t)); [discriminate|].
    destruct (set_option junk c v1 f m a t); try discriminate. apply IH.
Qed.
(** The last member for an option decides. *)
Theorem process_sets f a specs m l1 k v l2 m' s : wf_all specs -> process junk c f m a specs (l1 ++ (k, v) :: l2) = Ok m' ->
  find specs k = Some s -> pass2 (hd_of s) = second f -> Forall (fun kv => find specs (fst kv) <> Some s) l2 ->
  refused c f (hd_of s) = false /\ exists m1 m2, set_option junk c v f m1 a s = Ok m2 /\ forall i, inside a s i -> m' i = m2 i.
Proof.
  intros W H F P2 N. unfold process, process_with in H. destruct specs as [|s0 specs0]; [discriminate|]. remember (s0 :: specs0) as specs eqn:E. clear E.
  destruct (members c (set_option junk c) f a specs m (l1 ++ (k, v) :: l2) []) as [m0|m0|] eqn:M; try discriminate. injection H as ->.
  destruct (members_ok_inv f a specs k v s l2 F P2 _ _ _ _ M) as (RF & m1 & m2 & seen & S1 & S2). split; [exact RF|]. exists m1, m2. split; [exact S1|]. intros i Hi.
  apply (members_keep c (inside a s) (set_option junk c) f a specs l2) with (m := m2) (seen := seen); [|left; exact S2|exact Hi]. clear S2.
  revert N. apply Forall_impl. intros [k' v'] N t m3 F' _. cbn [fst snd] in *. pose proof (find_member _ _ _ F) as I1. pose proof (find_member _ _ _ F') as I2.
  destruct (wf_pair _ t s W I2 I1) as [->|[_ A]]; [contradiction|]. intros m4 L j Hj. apply (set_option_only junk c v' f t m3 a (wf_all_in _ _ W I2) m4 L). intros X. exact (apart_at a t s j A X Hj).
Qed.
(** An option no member stands for stays as it is, whether the call succeeds or not. *)
Theorem process_others f a specs m ms s : wf_all specs -> In s specs -> update f = true -> Forall (fun kv => find specs (fst kv) <> Some s) ms ->
  keep (inside a s) m (process junk c f m a specs ms).
Proof.
  intros W I1 U N. apply process_keep; [now left|apply Forall_forall; intros t I; eapply wf_all_in; eassumption|].
  revert N. apply Forall_impl. intros [k' v'] N t m3 F' _. cbn [fst snd] in *. pose proof (find_member _ _ _ F') as I2.
  destruct (wf_pair _ t s W I2 I1) as [->|[_ A]]; [contradiction|]. intros m4 L j Hj. apply (set_option_only junk c v' f t m3 a (wf_all_in _ _ W I2) m4 L). intros X. exact (apart_at a t s j A X Hj).
Qed.
(** Required options. *)
Lemma members_seen f a specs : forall l m seen m', members c (set_option junk c) f a specs m l seen = Ok m' ->
  exists seen', missing f specs seen' = false /\ forall n, In n seen' -> In n seen \/ exists kv s, In kv l /\ find specs (fst kv) = Some s /\ sname s = n /\ pass2 (hd_of s) = second f.
Proof.
  induction l as [|[k v] l IH]; intros m seen m'; cbn [members].
  - destruct (missing f specs seen) eqn:E; [discriminate|]. intros _. exists seen. auto.
  - assert (ST : forall m seen, members c (set_option junk c) f a specs m l seen = Ok m' -> exists seen', missing f specs seen' = false /\
        forall n, In n seen' -> In n seen \/ exists kv s, In kv ((k, v) :: l) /\ find specs (fst kv) = Some s /\ sname s = n /\ pass2 (hd_of s) = second f).
    { intros m1 seen1 H. destruct (IH _ _ _ H) as (seen' & M & P). exists seen'. split; [exact M|]. intros n Hn. destruct (P n Hn) as [X|(kv & s & X & Y)]; [now left|]. right. exists kv, s. split; [now right|exact Y]. }
    destruct (find specs k) as [s|] eqn:F; [|destruct (_ || _); [apply ST|discriminate]]. destruct (negb (eqb (second f) (pass2 (hd_of s)))) eqn:P2; [apply ST|]. destruct (refused c f (hd_of s)); [discriminate|].
    destruct (set_option junk c v f m a s) as [m1|m1|]; try discriminate. intros H. destruct (ST _ _ H) as (seen' & M & P). exists seen'. split; [exact M|]. intros n Hn.
    apply negb_false_iff, eqb_prop in P2. destruct (P n Hn) as [[<-|X]|X]; [|now left|now right]. right. exists (k, v), s. split; [now left|auto].
Qed.
Theorem process_required f a specs m ms m' s : wf_all specs -> process junk c f m a specs ms = Ok m' -> update f = false -> second f = false ->
  In s specs -> required (hd_of s) = true -> exists kv, In kv ms /\ find specs (fst kv) = Some s.
Proof.
  intros W H U S2 I R. unfold process, process_with in H. destruct specs as [|s0 specs0]; [discriminate|]. remember (s0 :: specs0) as specs eqn:E. clear E.
  destruct (members c (set_option junk c) f a specs m ms []) as [m0|m0|] eqn:M; try discriminate. destruct (members_seen _ _ _ _ _ _ _ M) as (seen & MS & P).
  unfold missing in MS. rewrite U, S2 in MS. cbn [negb andb] in MS. assert (X : (fun s => required (hd_of s) && negb (existsb (fun n => same MiscModel.keep n (sname s)) seen)) s = false).
  { destruct (required (hd_of s) && _) eqn:Y; [|reflexivity]. rewrite <- MS. symmetry. apply existsb_exists. exists s. auto. }
  cbn beta in X. rewrite R in X. cbn [andb] in X. apply negb_false_iff, existsb_exists in X. destruct X as (n & N1 & N2). apply same_eq in N2. destruct (P n N1) as [[]|(kv & t & K1 & K2 & K3 & _)].
  exists kv. split; [exact K1|]. pose proof (find_member _ _ _ K2) as I2. destruct (wf_pair _ s t W I I2) as [->|[X _]]; [exact K2|]. congruence.
Qed.
End Q.
