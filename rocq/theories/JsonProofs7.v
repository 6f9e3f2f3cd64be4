(** Objects with repeated field names; characters of the quoted form. *)
From Coq Require Import ZArith List Bool Lia Sorted.
From Verif Require Import Bits UtfModel UtfSpec UtfProofs CodecModel TreeModel TreeSpec TreeProps JsonModel JsonSpec JsonProofs JsonProofs2 JsonProofs3 JsonProofs4 JsonProofs5 JsonProofs6.
Import ListNotations.
Local Open Scope Z_scope.

Section Prec.
Context {dp : prec}.

Lemma eqb_list_true : forall a b, eqb_list a b = true <-> a = b.
Proof.
  induction a as [|x a IH]; intros [|y b]; cbn [eqb_list]; split; intros H; try discriminate; auto.
  - apply andb_true_iff in H as [H1 H2]. b2p. f_equal; auto. apply IH; auto.
  - injection H as <- <-. rewrite Z.eqb_refl. cbn. apply IH; auto.
Qed.
Lemma eqb_list_refl : forall a, eqb_list a a = true.
Proof. intros. apply eqb_list_true. auto. Qed.

Lemma ok_tree : forall M v, json_ok dp M v -> json_tree dp M v.
Proof.
  intros M v. induction v using jval_ind'; intros OK; inversion OK; subst; constructor; auto.
  - rewrite Forall_forall in *. auto.
  - rewrite Forall_forall in *. auto.
Qed.

Definition ckeys (l : list (list Z * jval)) : Prop := Forall (fun kv => cstring (fst kv)) l.
Lemma plain_cstring : forall k, plain_key k -> cstring k.
Proof. intros k H. eapply Forall_impl; [|exact H]. intros c Hc. cbv beta in Hc. lia. Qed.

Lemma merge_asc : forall l acc, ascending strcmp (map fst l) -> Forall (fun a => Forall (fun kv => strcmp (fst a) (fst kv) < 0) l) acc ->
  merge l acc = acc ++ l.
Proof.
  induction l as [|[k v] l IH]; intros acc HA HL; [cbn; now rewrite app_nil_r|].
  unfold merge in *. cbn [fold_left fst snd]. rewrite field_set_last.
  2:{ eapply Forall_impl; [|exact HL]. intros a Ha. inversion Ha as [|? ? Hx Hy]. exact Hx. }
  unfold ascending in HA. cbn [map fst] in HA. inversion HA as [|? ? HA1 HA2]. rewrite IH; auto.
  - rewrite <- app_assoc. reflexivity.
  - apply Forall_app. split.
    + eapply Forall_impl; [|exact HL]. intros a0 Ha. inversion Ha; auto.
    + constructor; [|constructor]. cbn [fst]. rewrite Forall_map in HA2. auto.
Qed.

Lemma map_id_in : forall (A : Type) (f : A -> A) l, (forall x, In x l -> f x = x) -> map f l = l.
Proof. induction l; intros H; cbn [map]; auto. f_equal; [apply H; left; auto|apply IHl; intros; apply H; right; auto]. Qed.
Lemma canon_id : forall M v, json_ok dp M v -> canon v = v.
Proof.
  intros M v. induction v using jval_ind'; intros OK; inversion OK; subst; cbn [canon]; auto.
  - f_equal. apply map_id_in. intros x Hx. rewrite Forall_forall in *. auto.
  - assert (map (fun kv => (fst kv, canon (snd kv))) l = l) as E.
    { apply map_id_in. intros [k x] Hx. cbn [fst snd]. f_equal. rewrite Forall_forall in *. apply (H (k, x)); auto. }
    rewrite E. rewrite merge_asc; auto.
Qed.

Lemma set_lt : forall k k0 v acc, strcmp k0 k < 0 -> Forall (fun kv => strcmp k0 (fst kv) < 0) acc ->
  Forall (fun kv => strcmp k0 (fst kv) < 0) (field_set strcmp k v acc).
Proof.
  induction acc as [|[k' v'] acc IH]; intros H1 H2; cbn [field_set].
  - constructor; auto.
  - inversion H2; subst. destruct (_ <? 0); [constructor; auto|]. destruct (_ =? 0); constructor; auto.
Qed.
Lemma set_asc : forall k v acc, cstring k -> ckeys acc -> ascending strcmp (map fst acc) -> ascending strcmp (map fst (field_set strcmp k v acc)).
Proof.
  unfold ascending. induction acc as [|[k' v'] acc IH]; intros CK CA HA; cbn [field_set map fst].
  - repeat constructor.
  - cbn [map fst] in HA. inversion HA as [|? ? HA1 HA2]; subst. inversion CA as [|? ? C1 C2]; subst. cbn [fst] in C1.
    destruct (strcmp k k' <? 0) eqn:X; [|destruct (strcmp k k' =? 0) eqn:Y].
    + b2p. cbn [map fst]. constructor; [constructor; auto|]. constructor; auto.
      rewrite Forall_map in *. rewrite Forall_forall in *. intros [k2 v2] Hk. cbn [fst]. apply (strcmp_trans k k' k2); auto.
      * apply (C2 (k2, v2)). auto.
      * apply (HA2 (k2, v2)); auto.
    + b2p. apply strcmp_zero in Y; auto. subst k'. cbn [map fst]. constructor; auto.
    + b2p. cbn [map fst]. constructor; [apply IH; auto|]. rewrite Forall_map in *. apply set_lt; auto. rewrite strcmp_flip. lia.
Qed.
Lemma set_ckeys : forall k v acc, cstring k -> ckeys acc -> ckeys (field_set strcmp k v acc).
Proof.
  unfold ckeys. induction acc as [|[k' v'] acc IH]; intros CK CA; cbn [field_set]; [constructor; auto|].
  inversion CA; subst. destruct (_ <? 0); [constructor; auto|]. destruct (_ =? 0); constructor; auto.
Qed.
Lemma set_first : forall k v acc q, cstring k -> ckeys acc ->
  first_field q (field_set strcmp k v acc) = if eqb_list q k then Some v else first_field q acc.
Proof.
  induction acc as [|[k' v'] acc IH]; intros q CK CA; cbn [field_set first_field]; [reflexivity|].
  inversion CA as [|? ? C1 C2]; subst. cbn [fst] in C1.
  destruct (strcmp k k' <? 0) eqn:X; [reflexivity|]. destruct (strcmp k k' =? 0) eqn:Y.
  - b2p. apply strcmp_zero in Y; auto. subst k'. cbn [first_field]. destruct (eqb_list q k); reflexivity.
  - cbn [first_field]. destruct (eqb_list q k') eqn:Q.
    + apply eqb_list_true in Q. subst q. destruct (eqb_list k' k) eqn:R; [|reflexivity].
      apply eqb_list_true in R. subst k'. rewrite strcmp_refl in Y. discriminate.
    + apply IH; auto.
Qed.
Lemma merge_ok : forall l acc, ckeys l -> ckeys acc -> ascending strcmp (map fst acc) ->
  ascending strcmp (map fst (merge l acc)) /\
  forall q, first_field q (merge l acc) = match first_field q (rev l) with Some v => Some v | None => first_field q acc end.
Proof.
  induction l as [|[k v] l IH]; intros acc CL CA HA; [split; auto|].
  inversion CL as [|? ? C1 C2]; subst. cbn [fst] in C1. unfold merge in *. cbn [fold_left fst snd].
  destruct (IH (field_set strcmp k v acc)) as [I1 I2]; auto.
  - apply set_ckeys; auto.
  - apply set_asc; auto.
  - split; auto. intros q. rewrite I2. cbn [rev].
    assert (G : forall a b, first_field q (a ++ b) = match first_field q a with Some v => Some v | None => first_field q b end).
    { clear. induction a as [|[k v] a IH]; intros b; cbn [app first_field]; auto. destruct (eqb_list q k); auto. }
    rewrite G, set_first by auto. destruct (first_field q (rev l)); auto. cbn [first_field]. destruct (eqb_list q k); auto.
Qed.
Lemma first_map : forall f l q, first_field q (map (fun kv => (fst kv, f (snd kv))) l) = option_map f (first_field q l).
Proof. induction l as [|[k v] l IH]; intros q; cbn [map first_field fst snd option_map]; auto. destruct (eqb_list q k); auto. Qed.
Lemma first_in : forall q l v, first_field q l = Some v -> In (q, v) l.
Proof.
  induction l as [|[k v0] l IH]; intros v H; cbn [first_field] in H; [discriminate|]. destruct (eqb_list q k) eqn:E.
  - apply eqb_list_true in E. subst. injection H as <-. left; auto.
  - right; auto.
Qed.
Lemma canon_means : forall M v, json_tree dp M v -> means v (canon v).
Proof.
  intros M v. induction v using jval_ind'; intros OK; inversion OK; subst; cbn [canon]; [constructor|constructor|constructor|constructor|apply mn_arr|].
  - apply ok_arr_inv in OK as [HO _]. clear -H HO. induction HO; [constructor|]. inversion H; subst. cbn [map]. constructor; auto.
  - assert (CK : ckeys (map (fun kv => (fst kv, canon (snd kv))) l)).
    { apply ok_obj_inv in OK as [HO _]. unfold ckeys. rewrite Forall_map. cbn [fst]. eapply Forall_impl; [|exact HO]. intros. apply plain_cstring; auto. }
    destruct (merge_ok (map (fun kv => (fst kv, canon (snd kv))) l) []) as [A B]; auto; [constructor|constructor|]. apply mn_obj; auto.
    + intros k HK. rewrite B. unfold last_field in HK. rewrite <- map_rev, first_map, HK. reflexivity.
    + intros k v HK. unfold last_field in HK. exists (canon v). split.
      * rewrite B, <- map_rev, first_map, HK. reflexivity.
      * apply first_in in HK. apply in_rev in HK. apply ok_obj_inv in OK as [_ HO]. rewrite Forall_forall in *. apply (H (k, v)); auto.
Qed.

(** ** the quoted form is printable ASCII *)
Definition printable (c : Z) : Prop := 32 <= c <= 126.
Lemma hexc_print : forall x, printable (to_hex_char x).
Proof.
  intros x. unfold to_hex_char. change 15 with (2 ^ 4 - 1). rewrite (land_pow2 x 4) by lia. change (2 ^ 4) with 16.
  assert (B : 0 <= x mod 16 < 16) by (apply Z.mod_pos_bound; lia). revert B. generalize (x mod 16). intros y B.
  assert (H : ((32 <=? hexd y) && (hexd y <=? 126)) = true).
  { revert y B. apply (range_forall 16 (fun n => (32 <=? hexd n) && (hexd n <=? 126))). vm_compute. reflexivity. }
  unfold hexd in H. apply andb_true_iff in H as [H1 H2]. b2p. unfold printable. lia.
Qed.
Lemma escape_print : forall fuel s, Forall printable (escape fuel s).
Proof.
  induction fuel as [|f IH]; intros s; cbn [escape]; [constructor|]. destruct s as [|c s]; [constructor|].
  destruct (json_special c) as [d|] eqn:J.
  - constructor; [unfold printable; lia|]. constructor; auto. unfold json_special in J.
    destruct ((c =? 92) || (c =? 34)) eqn:A; [injection J as <-; apply orb_true_iff in A as [A|A]; b2p; unfold printable; lia|].
    repeat match type of J with (if ?b then _ else _) = _ => destruct b; [injection J as <-; unfold printable; lia|] end. discriminate.
  - destruct (isprint c) eqn:P.
    + constructor; auto. unfold isprint in P. apply andb_true_iff in P as [P1 P2]. b2p. unfold printable. lia.
    + destruct (utf_encode6 (c :: s)) as [u l] eqn:U. unfold utf_encode6 in U. destruct (utf_to_unichar (c :: s)) as [iv il].
      injection U as <- <-. apply Forall_app. split; auto. repeat (constructor; [first [apply hexc_print | unfold printable; lia]|]). constructor.
Qed.

End Prec.
