(** * Options: proofs *)
From Coq Require Import ZArith List Bool Lia SpecFloat.
Import ListNotations.
Require Import Verif.Bits Verif.StrModel Verif.NumModel Verif.OpsModel Verif.MiscModel Verif.OptModel Verif.OptSpec.
Local Open Scope Z_scope.
Local Notation str := (list Z).

(** ** Names *)
Lemma same_eq a : forall b, same keep a b = true <-> a = b.
Proof.
  induction a as [|x a IH]; intros [|y b]; cbn [same]; try (split; [discriminate|discriminate]); [tauto|].
  unfold keep at 1 2. rewrite andb_true_iff, Z.eqb_eq, IH. split; [intros [-> ->]; reflexivity|]. intros H. injection H as -> ->. auto.
Qed.
Lemma starts_app a b : starts keep a b = true <-> exists r, a = b ++ r.
Proof.
  revert a. induction b as [|y b IH]; intros [|x a]; cbn [starts].
  - split; [exists []; reflexivity|reflexivity].
  - split; [exists (x :: a); reflexivity|reflexivity].
  - split; [discriminate|]. intros [r H]. discriminate.
  - unfold keep at 1 2. rewrite andb_true_iff, Z.eqb_eq, IH. split.
    + intros [-> [r ->]]. exists r. reflexivity.
    + intros [r H]. injection H as -> ->. eauto.
Qed.
Lemma at_same (n r : str) : n <> [] -> UtfModel.at_ (n ++ r) 0 = UtfModel.at_ n 0.
Proof. destruct n; [contradiction|reflexivity]. Qed.
Lemma candidate s n : n <> [] ->
  (negb (UtfModel.at_ (sname s) 0 =? UtfModel.at_ n 0) || negb (starts keep (sname s) n)) = false <-> exactly n s \/ longer n s.
Proof.
  intros N. rewrite orb_false_iff, !negb_false_iff, Z.eqb_eq, starts_app. unfold exactly, longer. split.
  - intros [_ [[|x r] H]]; [left; now rewrite app_nil_r in H|]. right. exists (x :: r). split; [discriminate|exact H].
  - intros [H|[r [_ H]]]; rewrite H.
    + split; [reflexivity|exists []; now rewrite app_nil_r].
    + split; [now apply at_same|eauto].
Qed.
Lemma not_longer n s : exactly n s -> ~ longer n s.
Proof. unfold exactly, longer. intros -> (r & R & H). apply R. destruct r; [reflexivity|]. exfalso. apply (f_equal (@length Z)) in H. rewrite app_length in H. cbn in H. lia. Qed.
Definition longerb (n : str) (s : spec) : bool := starts keep (sname s) n && negb (same keep (sname s) n).
Lemma longerb_iff n s : longerb n s = true <-> longer n s.
Proof.
  unfold longerb. rewrite andb_true_iff, negb_true_iff, starts_app. split.
  - intros [[r H] X]. exists r. split; [|exact H]. intros ->. rewrite app_nil_r in H. rewrite H in X. assert (same keep n n = true) by now apply same_eq. congruence.
  - intros (r & R & H). split; [eauto|]. destruct (same keep (sname s) n) eqn:E; [|reflexivity]. apply same_eq in E. exfalso. apply (not_longer n s E). exists r. auto.
Qed.
(** The search through options none of which has the very name. *)
Lemma find_through n : n <> [] -> forall l r acc, Forall (fun t => ~ exactly n t) l ->
  find_from acc (l ++ r) n =
    match acc, filter (longerb n) l with
    | x, [] => find_from x r n
    | None, [t] => find_from (Some t) r n
    | _, _ => None
    end.
Proof.
  intros N. induction l as [|t l IH]; intros r acc H; [cbn [app filter]; destruct acc; reflexivity|]. inversion H as [|? ? Ht Hl]; subst. cbn [app find_from filter].
  destruct (negb _ || negb _) eqn:C.
  - assert (longerb n t = false) as ->. { destruct (longerb n t) eqn:L; [|reflexivity]. apply longerb_iff in L. assert (X : exactly n t \/ longer n t) by now right. apply candidate in X; [congruence|exact N]. }
    now apply IH.
  - apply candidate in C; [|exact N]. destruct C as [C|C]; [contradiction|]. pose proof C as L. apply longerb_iff in L. rewrite L.
    destruct (same keep (sname t) n) eqn:E; [apply same_eq in E; contradiction|]. destruct acc as [u|]; [reflexivity|]. rewrite IH by exact Hl.
    destruct (filter (longerb n) l); reflexivity.
Qed.
Lemma find_here n s r acc : n <> [] -> exactly n s -> find_from acc (s :: r) n = Some s.
Proof.
  intros N E. cbn [find_from]. destruct (negb _ || negb _) eqn:C; [assert (X : exactly n s \/ longer n s) by (now left); apply candidate in X; [congruence|exact N]|].
  apply same_eq in E. now rewrite E.
Qed.
Lemma find_in l n s : n <> [] -> find l n = Some s -> In s l /\ (exactly n s \/ longer n s).
Proof.
  intros N. unfold find. assert (G : forall l acc, find_from acc l n = Some s -> acc = Some s \/ (In s l /\ (exactly n s \/ longer n s))).
  { clear l. induction l as [|t l IH]; intros acc H; [now left|]. cbn [find_from] in H. destruct (negb _ || negb _) eqn:C.
    - destruct (IH _ H) as [X|[X1 X2]]; [now left|right; split; [now right|exact X2]].
    - apply candidate in C; [|exact N]. destruct (same keep (sname t) n); [injection H as <-; right; split; [now left|exact C]|].
      destruct acc; [discriminate|]. destruct (IH _ H) as [X|[X1 X2]]; [injection X as <-; right; split; [now left|exact C]|right; split; [now right|exact X2]]. }
  intros H. destruct (G l None H) as [X|X]; [discriminate|exact X].
Qed.

(** ** Bytes *)
Lemma put_list_out m l : forall a i, ~ (a <= i < a + Z.of_nat (length l)) -> put_list m a l i = m i.
Proof.
  revert m. induction l as [|c l IH]; intros m a i H; [reflexivity|]. cbn [put_list length] in *. rewrite IH by lia. unfold put. destruct (Z.eqb_spec i a); [lia|reflexivity].
Qed.
Lemma put_list_in l : forall m a i c, nth_error l i = Some c -> put_list m a l (a + Z.of_nat i) = c.
Proof.
  induction l as [|c0 l IH]; intros m a [|i] c H; try discriminate; cbn [put_list nth_error] in *.
  - injection H as <-. rewrite put_list_out by lia. unfold put. rewrite Z.add_0_r, Z.eqb_refl. reflexivity.
  - replace (a + Z.of_nat (S i)) with (a + 1 + Z.of_nat i) by lia. now apply IH.
Qed.
Lemma le_bytes_length k : forall u, length (le_bytes k u) = k.
Proof. induction k as [|k IH]; intros u; [reflexivity|]. cbn [le_bytes length]. now rewrite IH. Qed.
Lemma load_put k : forall m a u, load_u (put_list m a (map CByte (le_bytes k u))) a k = u mod 256 ^ Z.of_nat k.
Proof.
  induction k as [|k IH]; intros m a u; cbn [load_u le_bytes map put_list]; [cbn; now rewrite Z.mod_1_r|].
  rewrite IH. rewrite put_list_out by lia. unfold put. rewrite Z.eqb_refl. cbn [byte_of].
  rewrite Nat2Z.inj_succ, Z.pow_succ_r by lia. rewrite Z.rem_mul_r; [reflexivity|lia|]. apply Z.pow_pos_nonneg; lia.
Qed.
Lemma load_ext k : forall m m' a, (forall i, a <= i < a + Z.of_nat k -> m i = m' i) -> load_u m a k = load_u m' a k.
Proof. induction k as [|k IH]; intros m m' a H; [reflexivity|]. cbn [load_u]. rewrite (H a) by lia. rewrite (IH m m' (a + 1)); [reflexivity|]. intros i Hi. apply H. lia. Qed.
Lemma load_store m a k v : load_u (store_int m a k v) a k = v mod 256 ^ Z.of_nat k.
Proof. apply load_put. Qed.
Lemma pow256 k : 256 ^ Z.of_nat k = 2 ^ (8 * Z.of_nat k).
Proof. rewrite Z.pow_mul_r by lia. reflexivity. Qed.
Lemma load_store_int m a k v sg : (0 < k)%nat -> int_range k sg v -> load_int (store_int m a k v) a k sg = v.
Proof.
  intros K R. unfold load_int. rewrite load_store, pow256. unfold int_range in R. set (b := 8 * Z.of_nat k) in *. assert (B : 0 < b) by lia.
  assert (P : 2 ^ b = 2 * 2 ^ (b - 1)) by (rewrite <- Z.pow_succ_r by lia; f_equal; lia). assert (Q : 0 < 2 ^ (b - 1)) by (apply Z.pow_pos_nonneg; lia). destruct sg; cbn [andb].
  - destruct (Z_lt_le_dec v 0) as [L|L].
    + replace (v mod 2 ^ b) with (v + 2 ^ b) by (apply Z.mod_unique with (-1); [left|]; lia). destruct (Z.leb_spec (2 ^ (b - 1)) (v + 2 ^ b)); lia.
    + rewrite Z.mod_small by lia. destruct (Z.leb_spec (2 ^ (b - 1)) v); lia.
  - rewrite Z.mod_small by lia. reflexivity.
Qed.
Lemma store_int_out m a k v i : ~ (a <= i < a + Z.of_nat k) -> store_int m a k v i = m i.
Proof. intros H. apply put_list_out. now rewrite map_length, le_bytes_length. Qed.
Lemma store_cell_out m a c i : ~ (a <= i < a + 8) -> store_cell m a c i = m i.
Proof. intros H. apply put_list_out. cbn [length repeat]. lia. Qed.
Lemma store_cell_at m a c : store_cell m a c a = c.
Proof. unfold store_cell. pose proof (put_list_in (c :: repeat CPad 7) m a 0 c eq_refl) as H. now rewrite Z.add_0_r in H. Qed.
Lemma put_out m a c i : ~ (a <= i < a + 1) -> put m a c i = m i.
Proof. intros H. unfold put. destruct (Z.eqb_spec i a); [lia|reflexivity]. Qed.
