(** Searching from the right, trimming, case, map, repeat. *)
From Coq Require Import ZArith List Bool Lia.
Import ListNotations.
From Verif Require Import Bits CodecSpec UtfModel UtfSpec UtfProofs StrModel StrSpec StrProofs.
From Verif Require UtfProps.
Local Open Scope Z_scope.

Lemma no_occurs_nil : forall p i, p <> [] -> ~ occurs_at p [] i.
Proof. intros p i H Ho. apply occurs_le in Ho. destruct p; [congruence | simpl in Ho; lia]. Qed.

Lemma strrpos_loop_ok : forall pat, pat <> [] -> forall s off os,
  (exists k, occurs_at pat s k /\ (forall i, occurs_at pat s i -> (i <= k)%nat) /\
             strrpos_loop s pat off os = off + Z.of_nat k) \/
  ((forall i, ~ occurs_at pat s i) /\ strrpos_loop s pat off os = os).
Proof.
  intros pat Hp. induction s as [|c s IH]; intros off os.
  - right. split; [intros i; apply no_occurs_nil; auto | reflexivity].
  - cbn [strrpos_loop]. destruct (strstr (c :: s) pat) as [k|] eqn:E.
    2:{ right. split; [apply strstr_none; auto | reflexivity]. }
    destruct (strstr_some _ _ _ E) as [Hk Hmin]. left.
    destruct (IH (off + 1) (off + Z.of_nat k)) as [(k' & H1 & H2 & ->) | [H1 ->]].
    + exists (S k'). split; [apply occurs_S; auto|]. split; [|lia].
      intros [|i] Hi; [lia|]. pose proof (H2 i (proj1 (occurs_S pat c s i) Hi)). lia.
    + exists k. split; auto. split; auto. intros [|i] Hi; [lia|].
      exfalso. exact (H1 i (proj1 (occurs_S pat c s i) Hi)).
Qed.

Lemma strrstr_loop_ok : forall pat, pat <> [] -> forall fuel s off l, (length s < fuel)%nat ->
  (exists k, occurs_at pat s k /\ (forall i, occurs_at pat s i -> (i <= k)%nat) /\
             strrstr_loop fuel s pat off l = Done (Some (off + k)%nat)) \/
  ((forall i, ~ occurs_at pat s i) /\ strrstr_loop fuel s pat off l = Done l).
Proof.
  intros pat Hp. induction fuel as [|fuel IH]; intros s off l Hf; [lia|].
  cbn [strrstr_loop]. destruct (strstr s pat) as [k|] eqn:E.
  2:{ right. split; [apply strstr_none; auto | reflexivity]. }
  destruct (strstr_some _ _ _ E) as [Hk Hmin]. left.
  pose proof (occurs_le _ _ _ Hk) as Hlen.
  destruct (skipn k s) as [|x r] eqn:Es.
  { assert (length (skipn k s) = O) by (rewrite Es; auto). rewrite skipn_length in *. destruct pat; [congruence | simpl in Hlen; lia]. }
  assert (Hr : r = skipn (S k) s).
  { change (S k) with (1 + k)%nat. clear -Es. revert s Es. induction k; intros s Es; destruct s; try discriminate; simpl in *.
    - congruence. - apply IHk; auto. }
  assert (Hlr : length (skipn k s) = S (length r)) by (rewrite Es; auto). rewrite skipn_length in Hlr.
  destruct (IH r (S (off + k)) (Some (off + k)%nat)) as [(k' & H1 & H2 & ->) | [H1 ->]]; [lia| |].
  - exists (S (k + k'))%nat. split; [|split].
    + rewrite Hr in H1. apply occurs_skipn in H1; [|lia]. exact H1.
    + intros i Hi. destruct (Nat.le_gt_cases i k); [lia|].
      replace i with (S k + (i - S k))%nat in Hi by lia. apply occurs_skipn_inv in Hi.
      rewrite <- Hr in Hi. apply H2 in Hi. lia.
    + do 2 f_equal. lia.
  - exists k. split; auto. split; auto. intros i Hi. destruct (Nat.le_gt_cases i k); [lia|].
    replace i with (S k + (i - S k))%nat in Hi by lia. apply occurs_skipn_inv in Hi.
    rewrite <- Hr in Hi. exfalso. exact (H1 _ Hi).
Qed.

(** ** Trimming *)
Lemma in_bytes_iff : forall t c, in_bytes t c = true <-> In c t.
Proof.
  intros t c. unfold in_bytes. rewrite existsb_exists. split.
  - intros (x & H & E). apply Z.eqb_eq in E. congruence.
  - intros H. exists c. split; auto. apply Z.eqb_refl.
Qed.
Lemma in_bytes_false : forall t c, in_bytes t c = false -> ~ In c t.
Proof. intros t c H Hin. apply in_bytes_iff in Hin. congruence. Qed.

Section Trim.
Variable f : Z -> bool.
Fixpoint tl_ (s : list Z) : list Z := match s with [] => [] | c :: r => if f c then tl_ r else s end.
Fixpoint tr_ (s : list Z) (n : nat) : nat :=
  match n with O => O | S m => if f (at_ s m) then tr_ s m else n end.
Lemma tl_ok : forall s, trimmed_left (fun c => f c = true) s (tl_ s).
Proof.
  induction s as [|c s IH]; simpl.
  - exists []. repeat split; auto. intros; discriminate.
  - destruct (f c) eqn:E.
    + destruct IH as (a & Hs & Ha & Hn). exists (c :: a). simpl. split; [congruence|]. split; auto.
    + exists []. repeat split; auto. intros x r' H. injection H as <- <-. congruence.
Qed.
Lemma firstn_S : forall (s : list Z) n, (n < length s)%nat -> firstn (S n) s = firstn n s ++ [at_ s n].
Proof.
  induction s as [|c s IH]; intros n H; [simpl in H; lia|].
  destruct n; [reflexivity|]. cbn [length] in H.
  change (firstn (S (S n)) (c :: s)) with (c :: firstn (S n) s). rewrite IH by lia. reflexivity.
Qed.
Lemma tr_ok : forall s n, (n <= length s)%nat -> trimmed_right (fun c => f c = true) (firstn n s) (firstn (tr_ s n) s).
Proof.
  induction n as [|n IH]; intros H.
  - exists []. simpl. repeat split; auto. intros c r' E. destruct r'; discriminate.
  - cbn [tr_]. destruct (f (at_ s n)) eqn:E.
    + destruct (IH ltac:(lia)) as (b & Hs & Hb & Hn). exists (b ++ [at_ s n]). split; [|split; auto].
      * rewrite firstn_S by lia. rewrite Hs at 1. rewrite <- app_assoc. reflexivity.
      * apply Forall_app. auto.
    + exists []. rewrite app_nil_r. repeat split; auto. intros c r' Hc.
      rewrite firstn_S in Hc by lia. apply app_inj_tail in Hc. destruct Hc as [_ <-]. congruence.
Qed.
Lemma trim_both : forall s, trimmed (fun c => f c = true) s (let t := tl_ s in firstn (tr_ t (length t)) t).
Proof.
  intros s. cbv zeta. destruct (tl_ok s) as (a & Hs & Ha & Hn).
  destruct (tr_ok (tl_ s) (length (tl_ s)) ltac:(lia)) as (b & Hs2 & Hb & Hn2).
  rewrite firstn_all in Hs2. exists a, b. split; [congruence|]. repeat split; auto.
  intros c r' E. apply (Hn c (r' ++ b)). rewrite Hs2, E. reflexivity.
Qed.
End Trim.

Lemma trim_left_tl : forall t s, trim_left t s = tl_ (in_bytes t) s.
Proof. induction s as [|c s IH]; simpl; [|rewrite IH]; reflexivity. Qed.
Lemma trim_right_tr : forall t s n, trim_right_len t s n = tr_ (in_bytes t) s n.
Proof. induction n as [|n IH]; simpl; [|rewrite IH]; reflexivity. Qed.
Lemma skip_white_tl : forall s, skip_white s = tl_ isspace s.
Proof. induction s as [|c s IH]; simpl; [|rewrite IH]; reflexivity. Qed.
Lemma white_end_tr : forall s n, white_end s n = tr_ isspace s n.
Proof. induction n as [|n IH]; simpl; [|rewrite IH]; reflexivity. Qed.

Lemma isspace_white : forall c, isspace c = true <-> white c.
Proof.
  intros c. unfold isspace, JsonModel.isspace, white. cbn [In]. split.
  - intros H. b2p; lia.
  - intros H. destruct (c =? 32) eqn:E; [reflexivity|].
    destruct (9 <=? c) eqn:E1, (c <=? 13) eqn:E2; simpl; auto; b2p; lia.
Qed.

(** A set and a test of it *)
Lemma trimmed_ext : forall (P Q : Z -> Prop) s r, (forall c, P c <-> Q c) -> trimmed P s r -> trimmed Q s r.
Proof.
  intros P Q s r H (a & b & -> & Ha & Hb & H1 & H2). exists a, b. repeat split; auto.
  - revert Ha; apply Forall_impl; intros; apply H; auto.
  - revert Hb; apply Forall_impl; intros; apply H; auto.
  - intros c r' E HQ. apply (H1 c r' E), H; auto.
  - intros c r' E HQ. apply (H2 c r' E), H; auto.
Qed.
Lemma trimmed_left_ext : forall (P Q : Z -> Prop) s r, (forall c, P c <-> Q c) -> trimmed_left P s r -> trimmed_left Q s r.
Proof.
  intros P Q s r H (a & -> & Ha & H1). exists a. repeat split; auto.
  - revert Ha; apply Forall_impl; intros; apply H; auto.
  - intros c r' E HQ. apply (H1 c r' E), H; auto.
Qed.
Lemma trimmed_right_ext : forall (P Q : Z -> Prop) s r, (forall c, P c <-> Q c) -> trimmed_right P s r -> trimmed_right Q s r.
Proof.
  intros P Q s r H (a & -> & Ha & H1). exists a. repeat split; auto.
  - revert Ha; apply Forall_impl; intros; apply H; auto.
  - intros c r' E HQ. apply (H1 c r' E), H; auto.
Qed.

(** What is left is determined *)
Lemma trimmed_left_unique : forall P s r r', trimmed_left P s r -> trimmed_left P s r' -> r = r'.
Proof.
  intros P s r r' (a & -> & Ha & Hn) (a' & E & Ha' & Hn').
  revert a' E Ha'. induction a as [|x a IH]; intros [|x' a'] E Ha'; simpl in E.
  - auto.
  - subst r. inversion Ha'; subst. exfalso. eapply Hn; eauto.
  - subst r'. inversion Ha; subst. exfalso. eapply Hn'; eauto.
  - injection E as -> E. inversion Ha; inversion Ha'; subst. eauto.
Qed.

(** ** Case *)
Definition case_of (upper : Z) (c : Z) : Z := if upper =? 0 then lower_of c else upper_of c.
(** The characters that the loop puts out *)
Fixpoint cased (upper : Z) (cs : list Z) : list Z :=
  match cs with
  | [] => []
  | [c] => if c <? 128 then [case_of upper c] else []
  | c :: r => case_of upper c :: cased (if upper =? 2 then 0 else upper) r
  end.
Lemma utf8_ascii : forall c, c < 128 -> utf8 c = [c].
Proof. intros c H. unfold utf8. destruct (c <? 128) eqn:E; [auto|zb]. Qed.
Lemma utf8_high : forall c, codepoint c -> 128 <= c -> exists b r, utf8 c = b :: r /\ 128 <= b.
Proof.
  intros c Hc H. unfold codepoint in Hc. unfold utf8.
  destruct (c <? 128) eqn:E1; [zb|]. destruct (c <? 2048) eqn:E2.
  - eexists _, _. split; [reflexivity|]. assert (0 <= c / 64) by (apply Z.div_pos; lia). lia.
  - destruct (c <? 65536) eqn:E3.
    + eexists _, _. split; [reflexivity|]. assert (0 <= c / 4096) by (apply Z.div_pos; lia). lia.
    + eexists _, _. split; [reflexivity|]. assert (0 <= c / 262144) by (apply Z.div_pos; lia). lia.
Qed.
Lemma case_high : forall u c, 128 <= c -> case_of u c = c.
Proof.
  intros u c H. unfold case_of, lower_of, upper_of.
  destruct (97 <=? c) eqn:E1, (c <=? 122) eqn:E2, (65 <=? c) eqn:E3, (c <=? 90) eqn:E4, (u =? 0); simpl; auto; zb.
Qed.
Lemma case_low : forall u c, c < 128 -> case_of u c < 128.
Proof.
  intros u c H. unfold case_of, lower_of, upper_of.
  destruct (97 <=? c) eqn:E1, (c <=? 122) eqn:E2, (65 <=? c) eqn:E3, (c <=? 90) eqn:E4, (u =? 0); simpl; auto; zb.
Qed.
Lemma tocase_loop_ok : forall cs fuel m upper, Forall codepoint cs -> (length cs < fuel)%nat -> 0 <= m ->
  tocase_loop fuel (text cs) m (m + Z.of_nat (length (text cs))) upper = Done (text (cased upper cs)).
Proof.
  induction cs as [|c cs IH]; intros fuel m upper Hc Hf Hm; (destruct fuel as [|fuel]; [simpl in Hf; lia|]); [reflexivity|].
  inversion Hc as [|? ? Hcc Hcs]; subst.
  change (text (c :: cs)) with (utf8 c ++ text cs). rewrite app_length.
  cbn [length] in Hf.
  destruct (c <? 128) eqn:E.
  - apply Z.ltb_lt in E. rewrite utf8_ascii by auto. cbn [app length tocase_loop].
    destruct (m + Z.of_nat (1 + length (text cs)) <=? m) eqn:E1; [zb|].
    destruct (128 <=? c) eqn:E2; [zb|].
    replace (m + Z.of_nat (1 + length (text cs))) with ((m + 1) + Z.of_nat (length (text cs))) by lia.
    rewrite IH by (auto; lia).
    assert (Hcase : (if upper =? 0 then tolower c else toupper c) = case_of upper c) by reflexivity.
    rewrite Hcase. f_equal. destruct cs as [|d cs].
    + cbn [cased]. replace (c <? 128) with true by (symmetry; apply Z.ltb_lt; auto).
      cbn [text flat_map]. rewrite utf8_ascii by (apply case_low; auto). reflexivity.
    + change (cased upper (c :: d :: cs)) with (case_of upper c :: cased (if upper =? 2 then 0 else upper) (d :: cs)).
      change (text (case_of upper c :: cased (if upper =? 2 then 0 else upper) (d :: cs))) with
        (utf8 (case_of upper c) ++ text (cased (if upper =? 2 then 0 else upper) (d :: cs))).
      rewrite utf8_ascii by (apply case_low; auto). reflexivity.
  - apply Z.ltb_ge in E. destruct (utf8_high c Hcc E) as (b & r & Hu & Hb).
    cbn [tocase_loop]. rewrite Hu. cbn [app]. rewrite <- Hu.
    change (b :: r ++ text cs) with ((b :: r) ++ text cs). rewrite <- Hu.
    rewrite decode_utf8 by auto. cbn [fst]. rewrite encode_utf8 by auto.
    pose proof (utf8_length c) as HL.
    destruct (m + Z.of_nat (length (utf8 c) + length (text cs)) <=? m) eqn:E1; [zb|].
    destruct (128 <=? b) eqn:E2; [|zb].
    rewrite skipn_app_exact.
    destruct (m + Z.of_nat (length (utf8 c) + length (text cs)) <=? m + Z.of_nat (length (utf8 c))) eqn:E3.
    + destruct cs as [|d cs].
      * cbn [cased]. destruct (c <? 128) eqn:E4; [zb|]. reflexivity.
      * cbn [text flat_map] in E3. rewrite app_length in E3. pose proof (utf8_length d). zb.
    + replace (m + Z.of_nat (length (utf8 c) + length (text cs))) with
        ((m + Z.of_nat (length (utf8 c))) + Z.of_nat (length (text cs))) by lia.
      rewrite IH by (auto; lia). f_equal.
      destruct cs as [|d cs]; [simpl in E3; zb|].
      change (cased upper (c :: d :: cs)) with (case_of upper c :: cased (if upper =? 2 then 0 else upper) (d :: cs)).
      rewrite case_high by auto. reflexivity.
Qed.
Lemma text_length_le : forall cs, (length cs <= length (text cs))%nat.
Proof. induction cs as [|c cs IH]; simpl; auto. rewrite app_length. pose proof (utf8_length c). lia. Qed.
Lemma tocase_ok : forall cs upper, Forall codepoint cs -> tocase (text cs) upper = Done (text (cased upper cs)).
Proof.
  intros. unfold tocase. pose proof (text_length_le cs).
  rewrite <- (tocase_loop_ok cs (S (length (text cs))) 0 upper); auto; try lia.
Qed.
Lemma cased_map : forall upper cs, upper <> 2 -> cs = [] \/ (exists a c, cs = a ++ [c] /\ c < 128) ->
  cased upper cs = map (case_of upper) cs.
Proof.
  intros upper cs Hu. induction cs as [|c cs IH]; intros H; [reflexivity|].
  assert (U : (if upper =? 2 then 0 else upper) = upper) by (destruct (upper =? 2) eqn:E; [zb|auto]).
  destruct H as [H | (a & d & H & Hd)]; [discriminate|].
  destruct cs as [|e cs].
  - destruct a as [|? a]; [injection H as ->|destruct a; discriminate].
    cbn [cased map]. destruct (d <? 128) eqn:E; [reflexivity|zb].
  - change (cased upper (c :: e :: cs)) with (case_of upper c :: cased (if upper =? 2 then 0 else upper) (e :: cs)).
    rewrite U. cbn [map]. f_equal. apply IH. right.
    destruct a as [|x a]; [discriminate|]. injection H as -> H. exists a, d. auto.
Qed.
Lemma cased_last : forall upper a c, upper <> 2 -> 128 <= c -> cased upper (a ++ [c]) = map (case_of upper) a.
Proof.
  intros upper a c Hu Hc. induction a as [|x a IH].
  - cbn. destruct (c <? 128) eqn:E; [zb|reflexivity].
  - assert (U : (if upper =? 2 then 0 else upper) = upper) by (destruct (upper =? 2) eqn:E; [zb|auto]).
    cbn [app map]. rewrite <- IH. destruct (a ++ [c]) eqn:E; [destruct a; discriminate|].
    change (cased upper (x :: z :: l)) with (case_of upper x :: cased (if upper =? 2 then 0 else upper) (z :: l)).
    rewrite U. reflexivity.
Qed.

(** ** map *)
Definition full_pairs (l : list (list Z * list Z)) := map (fun kv => (Some (fst kv), Some (snd kv))) l.
Lemma map_find_ok : forall l p, Forall (fun kv : list Z * list Z => fst kv <> []) l ->
  (exists p1 k v p2 s, l = p1 ++ (k, v) :: p2 /\ p = k ++ s /\ (forall k' v', In (k', v') p1 -> ~ occurs_at k' p 0) /\
     k <> [] /\ map_find (full_pairs l) p = Done (Some (k, v))) \/
  ((forall k v, In (k, v) l -> ~ occurs_at k p 0) /\ map_find (full_pairs l) p = Done None).
Proof.
  induction l as [|[k v] l IH]; intros p Hl.
  - right. split; [intros ? ? [] | reflexivity].
  - inversion Hl as [|? ? Hk Hl']; subst. cbn [fst] in Hk.
    assert (Hs : map_find (full_pairs ((k, v) :: l)) p = if prefixb k p then Done (Some (k, v)) else map_find (full_pairs l) p).
    { destruct k; [contradiction | reflexivity]. }
    rewrite Hs. destruct (prefixb k p) eqn:E.
    + left. apply prefixb_iff in E. destruct E as (s & ->). exists [], k, v, l, s.
      split; [reflexivity|]. split; [reflexivity|]. split; [intros ? ? []|]. auto.
    + assert (Hno : ~ occurs_at k p 0) by (intros H; apply prefix_occurs in H; congruence).
      destruct (IH p Hl') as [(p1 & k' & v' & p2 & s & -> & -> & H1 & H2 & H3) | [H1 H2]].
      * left. exists ((k, v) :: p1), k', v', p2, s. split; [reflexivity|]. split; [reflexivity|].
        split; auto. intros k1 v1 [H | H]; [injection H as <- <-; auto | eauto].
      * right. split; auto. intros k1 v1 [H | H]; [injection H as <- <-; auto | eauto].
Qed.
Lemma map_loop_ok : forall l, Forall (fun kv : list Z * list Z => fst kv <> []) l ->
  forall fuel p acc r, (length p < fuel)%nat -> map_loop fuel (full_pairs l) p acc = Done r ->
  exists t, r = acc ++ t /\ replaced l p t.
Proof.
  intros l Hl. induction fuel as [|fuel IH]; intros p acc r Hf H; [lia|].
  destruct p as [|c p]; cbn [map_loop] in H.
  - injection H as <-. exists []. rewrite app_nil_r. split; auto. constructor.
  - destruct (map_find_ok l (c :: p) Hl) as [(p1 & k & v & p2 & s & E1 & E2 & H1 & H2 & H3) | [H1 H2]].
    + rewrite H3 in H. destruct (MAX_ALLOC_BUF <=? Z.of_nat (length acc + length v + 1)); [discriminate|].
      rewrite E2, skipn_pre in H. apply IH in H.
      * destruct H as (t & -> & Ht). exists (v ++ t). rewrite <- app_assoc. split; auto.
        rewrite E2. apply (rep_key l p1 k v p2); auto. rewrite <- E2. auto.
      * rewrite E2 in Hf. rewrite app_length in Hf. destruct k; [contradiction | simpl in Hf; lia].
    + rewrite H2 in H. apply IH in H; [|simpl in Hf; lia]. destruct H as (t & -> & Ht).
      exists (c :: t). rewrite <- app_assoc. split; auto. constructor; auto.
Qed.
(** Without an overlong result the command does answer *)
Lemma map_loop_total : forall l, Forall (fun kv : list Z * list Z => fst kv <> []) l ->
  forall fuel p acc, (length p < fuel)%nat ->
  exists t, replaced l p t /\
    (Z.of_nat (length acc + length t + 1) < MAX_ALLOC_BUF -> map_loop fuel (full_pairs l) p acc = Done (acc ++ t)) /\
    map_loop fuel (full_pairs l) p acc <> Bad.
Proof.
  intros l Hl. induction fuel as [|fuel IH]; intros p acc Hf; [lia|].
  destruct p as [|c p]; cbn [map_loop].
  { exists []. split; [constructor|]. rewrite app_nil_r. split; [auto | discriminate]. }
  destruct (map_find_ok l (c :: p) Hl) as [(p1 & k & v & p2 & s & E1 & E2 & H1 & H2 & H3) | [H1 H2]].
  - rewrite H3, E2, skipn_pre. destruct (IH s (acc ++ v)) as (t & Ht & Hd & Hb).
    { rewrite E2, app_length in Hf. destruct k; [contradiction | simpl in Hf; lia]. }
    exists (v ++ t). split; [apply (rep_key l p1 k v p2); auto; rewrite <- E2; auto|].
    destruct (MAX_ALLOC_BUF <=? Z.of_nat (length acc + length v + 1)) eqn:E.
    + split; [|discriminate]. rewrite app_length. intros; zb.
    + split; auto. intros Hlen. rewrite app_assoc. apply Hd. rewrite app_length in *. lia.
  - rewrite H2. destruct (IH p (acc ++ [c])) as (t & Ht & Hd & Hb); [simpl in Hf; lia|].
    exists (c :: t). split; [constructor; auto|]. split; auto. intros Hlen. rewrite Hd; [rewrite <- app_assoc; reflexivity|].
    rewrite app_length. cbn [length] in *. lia.
Qed.

(** ** repeat, concat *)
Lemma repeat_loop_ok : forall cnt v acc, Z.of_nat (length acc) + Z.of_nat cnt * Z.of_nat (length v) < MAX_ALLOC_BUF ->
  repeat_loop cnt v acc = Done (acc ++ concat (repeat v cnt)).
Proof.
  induction cnt as [|cnt IH]; intros v acc H; simpl; [rewrite app_nil_r; reflexivity|].
  destruct (MAX_ALLOC_BUF <=? Z.of_nat (length acc + length v)) eqn:E.
  - b2p. nia.
  - rewrite IH; [rewrite <- app_assoc; reflexivity|]. rewrite app_length. lia.
Qed.
Lemma repeat_loop_fail : forall cnt v acc, MAX_ALLOC_BUF <= Z.of_nat (length acc) + Z.of_nat cnt * Z.of_nat (length v) ->
  Z.of_nat (length acc) < MAX_ALLOC_BUF -> repeat_loop cnt v acc = Fail.
Proof.
  induction cnt as [|cnt IH]; intros v acc H H0; [lia|].
  cbn [repeat_loop]. destruct (MAX_ALLOC_BUF <=? Z.of_nat (length acc + length v)) eqn:E; auto.
  apply IH; rewrite app_length; b2p; lia.
Qed.
Lemma concat_loop_ok : forall l acc, Z.of_nat (length acc) < MAX_ALLOC_BUF ->
  concat_loop acc (map Some l) =
  if Z.of_nat (length (acc ++ concat l)) <? MAX_ALLOC_BUF then Done (acc ++ concat l) else Fail.
Proof.
  induction l as [|s l IH]; intros acc H; cbn [map concat_loop].
  - cbn [concat]. rewrite app_nil_r. destruct (_ <? _) eqn:E; [reflexivity | zb].
  - destruct (MAX_ALLOC_BUF <=? Z.of_nat (length acc + length s)) eqn:E.
    + destruct (_ <? _) eqn:E2; auto. cbn [concat] in E2. rewrite !app_length in E2. zb.
    + rewrite IH; cbn [concat]; rewrite <- ?app_assoc; auto. rewrite app_length. zb.
Qed.

(** ** substring, slice on ASCII text *)
Lemma ascii_chars : forall s, Forall (fun c => 0 < c < 128) s -> text s = s /\ Forall codepoint s /\ num_utf_chars s (-1) = Z.of_nat (length s).
Proof.
  intros s H. assert (T : text s = s) by (apply UtfProps.ascii_text; revert H; apply Forall_impl; intros; lia).
  assert (C : Forall codepoint s) by (revert H; apply Forall_impl; unfold codepoint; intros; lia).
  repeat split; auto. rewrite <- T at 1. apply (UtfProps.num_chars_text s C).
Qed.
Lemma utf_substr_ascii : forall s k j, Forall (fun c => 0 < c < 128) s -> 0 <= k -> 0 <= j ->
  utf_substr s (Z.of_nat (length s)) k j = Some (firstn (Z.to_nat j) (skipn (Z.to_nat k) s)).
Proof.
  intros s k j H Hk Hj. destruct (ascii_chars s H) as (T & C & _).
  pose proof (UtfProps.utf_substr_ok s k j C Hk Hj) as U. rewrite T in U. rewrite U.
  - f_equal. apply UtfProps.ascii_text. apply UtfProps.Forall_firstn', UtfProps.Forall_skipn'.
    revert H; apply Forall_impl; intros; lia.
  - destruct (skipn (Z.to_nat k) s) as [|c r] eqn:E; auto. left.
    assert (In c s). { rewrite <- (firstn_skipn (Z.to_nat k) s), E. apply in_or_app; right; left; auto. }
    rewrite Forall_forall in H. apply H in H0. lia.
Qed.
