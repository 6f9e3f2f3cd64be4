(** Lemmas about glob matching. *)
From Coq Require Import ZArith List Bool Lia.
Import ListNotations.
From Verif Require Import Bits UtfModel UtfSpec UtfProofs GlobModel GlobSpec.
Local Open Scope Z_scope.

Definition T (cs : list Z) : list Z := text cs ++ [0].
Lemma T_cons : forall c cs, T (c :: cs) = utf8 c ++ T cs.
Proof. intros. unfold T, text. cbn [flat_map]. now rewrite <- app_assoc. Qed.
Lemma char_code : forall c, character c -> codepoint c.
Proof. unfold character, codepoint. lia. Qed.
Lemma T_decode : forall c cs, character c -> utf_to_unichar (T (c :: cs)) = (c, length (utf8 c)).
Proof. intros. rewrite T_cons. apply decode_utf8. now apply char_code. Qed.
Lemma T_skip : forall c cs, skipn (length (utf8 c)) (T (c :: cs)) = T cs.
Proof. intros. rewrite T_cons. apply skipn_app_exact. Qed.
Lemma T_first : forall c cs, character c -> exists b r, T (c :: cs) = b :: r /\ forall k, 0 <= k < 128 -> (b =? k) = (c =? k).
Proof.
  intros c cs H. rewrite T_cons. unfold utf8. unfold character in H.
  destruct (c <? 128) eqn:E1; [eexists; eexists; split; [reflexivity|]; auto|].
  assert (D : forall a b, 0 < a -> 0 <= b -> 0 <= b / a) by (intros; apply Z.div_pos; lia).
  assert (Q : forall b k, 128 <= b -> 0 <= k < 128 -> (b =? k) = (c =? k)).
  { intros b k Hb Hk. b2p. transitivity false; [apply Z.eqb_neq; lia|symmetry; apply Z.eqb_neq; lia]. }
  b2p. destruct (c <? 2048); [|destruct (c <? 65536)]; eexists; eexists; (split; [reflexivity|]); intros k Hk; apply Q; auto.
  - pose proof (D 64 c). lia.
  - pose proof (D 4096 c). lia.
  - pose proof (D 262144 c). lia.
Qed.
Lemma T_nonnil : forall cs, T cs <> [].
Proof. unfold T. intros cs H. destruct (text cs); discriminate. Qed.
Lemma T_nil : T [] = [0].
Proof. reflexivity. Qed.
Lemma case_ok : forall nocase c cs, character c -> utf_case nocase (T (c :: cs)) = (fold nocase c, length (utf8 c)).
Proof.
  intros nocase c cs H. unfold utf_case. rewrite T_decode by auto. unfold fold, upper. f_equal.
  destruct nocase; auto. cbn [andb]. destruct (c <? 128) eqn:E; auto.
  destruct ((97 <=? c) && (c <=? 122)) eqn:E2; auto. b2p. lia.
Qed.
Lemma fold_pos : forall nocase c, character c -> 0 < fold nocase c.
Proof. unfold character, fold. intros [|] c H; [|lia]. destruct ((97 <=? c) && (c <=? 122)) eqn:E; b2p; lia. Qed.
(** The second byte, when the first character is ASCII. *)
Lemma T_second : forall x cs, 0 < x < 128 -> Forall character cs -> (at_ (T (x :: cs)) 1 =? 0) = match cs with [] => true | _ => false end.
Proof.
  intros x cs H F. rewrite T_cons. unfold utf8. replace (x <? 128) with true by (symmetry; zb). cbn [app at_ nth].
  destruct cs as [|c cs]; [reflexivity|]. inversion F; subst. destruct (T_first c cs H2) as (b & r & -> & K). cbn [nth].
  rewrite K by lia. apply Z.eqb_neq. unfold character in H2. lia.
Qed.
Lemma T_tail : forall x cs, 0 < x < 128 -> skipn 1 (T (x :: cs)) = T cs.
Proof. intros. rewrite T_cons. unfold utf8. replace (x <? 128) with true by (symmetry; zb). reflexivity. Qed.

(** ** Sets *)
(** The ranges of a set, and what follows it with the ']' *)
Fixpoint set_parse (t : list Z) : list (Z * Z) * list Z :=
  match t with
  | [] => ([], [])
  | x :: r =>
      if x =? 93 then ([], t)
      else if x =? 92 then let '(rs, p) := set_parse r in ((x, x) :: rs, p)
      else match r with
           | d :: (y :: r2) =>
               if d =? 45 then let '(rs, p) := set_parse r2 in ((x, y) :: rs, p)
               else let '(rs, p) := set_parse r in ((x, x) :: rs, p)
           | _ => let '(rs, p) := set_parse r in ((x, x) :: rs, p)
           end
  end.
Definition in_range (nocase : bool) (c : Z) (r : Z * Z) : bool :=
  ((fold nocase (fst r) <=? c) && (c <=? fold nocase (snd r))) || ((fold nocase (snd r) <=? c) && (c <=? fold nocase (fst r))).

Lemma in_range_one : forall nocase c x, in_range nocase c (x, x) = (fold nocase x =? c).
Proof.
  intros. unfold in_range. cbn [fst snd]. destruct (fold nocase x =? c) eqn:E.
  - apply Z.eqb_eq in E. subst. rewrite Z.leb_refl. reflexivity.
  - apply Z.eqb_neq in E. apply not_true_iff_false. intros H. b2p. lia.
Qed.

Lemma charset_ok : forall nocase c n t m fuel, (length t <= n)%nat -> Forall character t -> (n < fuel)%nat ->
  charset_loop fuel nocase (T t) c m =
  Done (if m || existsb (in_range nocase c) (fst (set_parse t)) then Some (T (snd (set_parse t))) else None).
Proof.
  intros nocase c n. induction n as [n IH] using lt_wf_ind. intros t m fuel HL F HF. destruct fuel as [|fuel]; [lia|].
  destruct t as [|x r]; cbn [charset_loop].
  - cbn. now rewrite orb_false_r.
  - inversion F as [|? ? C F']; subst. destruct (T_first x r C) as (b & rb & E & K). rewrite E. rewrite !K by lia. rewrite <- E.
    replace (x =? 0) with false by (symmetry; apply Z.eqb_neq; unfold character in C; lia). cbn [orb].
    cbn [set_parse]. cbn [length] in HL.
    destruct (x =? 93) eqn:E93; [cbn [fst snd existsb]; now rewrite orb_false_r|].
    assert (ONE : charset_loop fuel nocase (T r) c (m || (fold nocase x =? c)) =
      Done (if m || existsb (in_range nocase c) (fst (let '(rs, p) := set_parse r in ((x, x) :: rs, p)))
            then Some (T (snd (let '(rs, p) := set_parse r in ((x, x) :: rs, p)))) else None)).
    { rewrite (IH (length r)) by (auto; lia). destruct (set_parse r) as [rs p]. cbn [fst snd existsb]. rewrite in_range_one, orb_assoc. reflexivity. }
    destruct (x =? 92) eqn:E92.
    + rewrite case_ok, T_skip by auto. exact ONE.
    + rewrite case_ok, T_skip by auto. destruct r as [|d r2].
      * change (T []) with [0]. cbn [andb Z.eqb]. change (T []) with [0] in ONE. exact ONE.
      * inversion F' as [|? ? D F2]; subst. destruct (T_first d r2 D) as (b1 & rb1 & E1 & K1). rewrite E1 at 1. rewrite K1 by lia.
        destruct (d =? 45) eqn:E45.
        -- apply Z.eqb_eq in E45. subst d. rewrite T_second by (auto; lia). destruct r2 as [|y r2].
           ++ cbn [negb andb]. exact ONE.
           ++ cbn [negb andb]. rewrite T_decode by auto. cbn [snd]. rewrite T_skip. inversion F2 as [|? ? Y F3]; subst.
              rewrite case_ok, T_skip by auto. cbn [length] in HL. rewrite (IH (length r2)) by (auto; lia).
              destruct (set_parse r2) as [rs p]. cbn [fst snd existsb]. unfold in_range at 2. cbn [fst snd]. rewrite !orb_assoc. reflexivity.
        -- cbn [andb]. destruct r2; exact ONE.
Qed.

Lemma set_parse_text : forall n t, (length t <= n)%nat -> set_text t (fst (set_parse t)) (tl (snd (set_parse t))).
Proof.
  intros n. induction n as [n IH] using lt_wf_ind. intros t HL. destruct t as [|x r]; [constructor|]. cbn [set_parse length] in *.
  destruct (x =? 93) eqn:E93; [apply Z.eqb_eq in E93; subst; constructor|]. apply Z.eqb_neq in E93.
  assert (R := IH (length r) ltac:(lia) r ltac:(lia)).
  destruct (x =? 92) eqn:E92.
  - apply Z.eqb_eq in E92. destruct (set_parse r) as [rs p]. apply set_one; auto.
  - apply Z.eqb_neq in E92. destruct r as [|d [|y r2]].
    + apply set_one; auto. right. discriminate.
    + destruct (set_parse [d]) as [rs p]. apply set_one; auto. right. discriminate.
    + destruct (d =? 45) eqn:E45.
      * apply Z.eqb_eq in E45. subst d. cbn [length] in HL. assert (R2 := IH (length r2) ltac:(lia) r2 ltac:(lia)).
        destruct (set_parse r2) as [rs p]. apply set_range; auto.
      * apply Z.eqb_neq in E45. destruct (set_parse (d :: y :: r2)) as [rs p]. apply set_one; auto. right. intros y' r' H. injection H as H _ _. auto.
Qed.
Lemma set_text_parse : forall t rs p, set_text t rs p -> fst (set_parse t) = rs /\ tl (snd (set_parse t)) = p.
Proof.
  intros t rs p H. induction H as [p| |x y t rs p H1 H2 H [IH1 IH2]|x t rs p H1 H2 H [IH1 IH2]]; cbn [set_parse].
  - rewrite Z.eqb_refl. auto.
  - auto.
  - apply Z.eqb_neq in H1. apply Z.eqb_neq in H2. unfold CLOSE, BACKSLASH in *. rewrite H1, H2. rewrite Z.eqb_refl.
    destruct (set_parse t) as [rs' p']. cbn [fst snd] in *. subst. auto.
  - apply Z.eqb_neq in H1. unfold CLOSE in H1. rewrite H1.
    assert (ONE : fst (let '(rs0, p0) := set_parse t in ((x, x) :: rs0, p0)) = (x, x) :: rs /\ tl (snd (let '(rs0, p0) := set_parse t in ((x, x) :: rs0, p0))) = p).
    { destruct (set_parse t) as [rs' p']. cbn [fst snd] in *. subst. auto. }
    destruct (x =? 92) eqn:E92; auto. destruct H2 as [->|H2]; [discriminate|]. destruct t as [|d [|y r2]]; auto.
    destruct (d =? 45) eqn:E45; auto. apply Z.eqb_eq in E45. subst. exfalso. apply (H2 y r2). reflexivity.
Qed.
Lemma set_parse_rest : forall n t, (length t <= n)%nat -> Forall character t ->
  (snd (set_parse t) = [] \/ exists p, snd (set_parse t) = 93 :: p) /\ (length (snd (set_parse t)) <= length t)%nat /\ Forall character (snd (set_parse t))
  /\ Forall (fun r => character (fst r) /\ character (snd r)) (fst (set_parse t)).
Proof.
  intros n. induction n as [n IH] using lt_wf_ind. intros t HL F. destruct t as [|x r]; [cbn; auto|]. cbn [set_parse length] in *.
  destruct (x =? 93) eqn:E93; [apply Z.eqb_eq in E93; subst; cbn [fst snd length]; eauto 6|].
  inversion F as [|? ? C F']; subst.
  assert (R := IH (length r) ltac:(lia) r ltac:(lia) F').
  assert (ONE : (snd (let '(rs, p) := set_parse r in ((x, x) :: rs, p)) = [] \/ exists p, snd (let '(rs, p) := set_parse r in ((x, x) :: rs, p)) = 93 :: p)
    /\ (length (snd (let '(rs, p) := set_parse r in ((x, x) :: rs, p))) <= S (length r))%nat
    /\ Forall character (snd (let '(rs, p) := set_parse r in ((x, x) :: rs, p)))
    /\ Forall (fun r => character (fst r) /\ character (snd r)) (fst (let '(rs, p) := set_parse r in ((x, x) :: rs, p)))).
  { destruct (set_parse r) as [rs p]. cbn [fst snd] in *. destruct R as (R1 & R2 & R3 & R4). repeat split; auto. }
  destruct (x =? 92); auto. destruct r as [|d [|y r2]]; auto. destruct (d =? 45); auto.
  inversion F' as [|? ? D F2]; subst. inversion F2 as [|? ? Y F3]; subst. cbn [length] in *.
  assert (R2 := IH (length r2) ltac:(lia) r2 ltac:(lia) F3). destruct (set_parse r2) as [rs p]. cbn [fst snd] in *.
  destruct R2 as (R1 & R3 & R4 & R5). repeat split; auto.
Qed.
