(** The tokenizer run on the text of a value. *)
From Coq Require Import ZArith List Bool Lia.
From Verif Require Import Bits UtfModel UtfSpec UtfProofs CodecModel TreeModel TreeSpec JsonModel JsonSpec JsonProofs JsonProofs2 JsonProofs3 NumJson.
From Verif Require NumModel NumSpec.
Import ListNotations.
Local Open Scope Z_scope.

Section Prec.
Context {dp : prec}.

Definition reach (st : bool) (js : list Z) (s s' : pst) : Prop :=
  exists n, forall fuel, run (n + fuel) st js s = run fuel st js s'.
Lemma reach_refl : forall st js s, reach st js s s.
Proof. exists 0%nat. auto. Qed.
Lemma reach_trans : forall st js a b c, reach st js a b -> reach st js b c -> reach st js a c.
Proof. intros st js a b c [n Hn] [m Hm]. exists (n + m)%nat. intros. rewrite <- Nat.add_assoc, Hn. auto. Qed.
Lemma reach_step : forall st js s s', at_ js (pos s) <> 0 -> step st js s = inl s' -> reach st js s s'.
Proof.
  intros st js s s' H1 H2. exists 1%nat. intros fuel. cbn [Nat.add run].
  destruct (at_ js (pos s) =? 0) eqn:X; [b2p; congruence|]. rewrite H2. auto.
Qed.

Definition ctype (T : list tok) (k : nat) : Prop := exists t, nth_error T k = Some t /\ container t.
Record ctx (s : pst) : Prop := {
  x_sup : super s = find_open (length (toks s)) (toks s);
  x_idx : forall k, index s = Some k -> ctype (toks s) k;
  x_cur : forall k, cur s = Some k -> ctype (toks s) k;
  x_in : forall k, super s = Some k -> ctype (toks s) k /\ index s <> None /\ cur s <> None
}.

Lemma ctype_app : forall T U k, ctype T k -> ctype (T ++ U) k.
Proof. intros T U k (t & H & C). exists t. split; auto. rewrite nth_error_app1; auto. apply nth_error_Some. congruence. Qed.
Lemma ctype_bump : forall s T k, ctype T k -> ctype (bump s T) k.
Proof.
  intros s T k (t & H & C). unfold ctype. rewrite bump_nth, H. destruct s as [i|]; [destruct (Nat.eqb k i)|]; cbn; eauto.
Qed.
Lemma super_lt : forall s k, ctx s -> super s = Some k -> (k < length (toks s))%nat.
Proof. intros s k X H. rewrite (x_sup _ X) in H. apply find_open_some in H. tauto. Qed.
Lemma bump_app : forall k T U, (k < length T)%nat -> bump (Some k) (T ++ U) = bump (Some k) T ++ U.
Proof.
  intros k T U H. cbn [bump]. unfold upd. rewrite nth_error_app1 by auto.
  destruct (nth_error T k) eqn:X; [|apply nth_error_None in X; lia].
  rewrite firstn_app, skipn_app. replace (k - length T)%nat with 0%nat by lia.
  replace (S k - length T)%nat with 0%nat by lia. cbn [firstn skipn]. rewrite app_nil_r, <- app_assoc. auto.
Qed.
Lemma upd_mid : forall T A K f, upd (T ++ A :: K) (length T) f = T ++ f A :: K.
Proof.
  intros. unfold upd. rewrite nth_error_app2, Nat.sub_diag by lia. cbn [nth_error].
  rewrite firstn_app, skipn_app, Nat.sub_diag, firstn_all, app_nil_r.
  replace (S (length T) - length T)%nat with 1%nat by lia. rewrite skipn_all2 by lia. reflexivity.
Qed.
Fixpoint bumpn (n : nat) (i : nat) (T : list tok) : list tok :=
  match n with O => T | S m => bumpn m i (bump (Some i) T) end.
Lemma bumpn_length : forall n i T, length (bumpn n i T) = length T.
Proof. induction n; intros; cbn [bumpn]; auto. rewrite IHn, bump_length. auto. Qed.
Lemma bumpn_app : forall n i T U, (i < length T)%nat -> bumpn n i (T ++ U) = bumpn n i T ++ U.
Proof. induction n; intros; cbn [bumpn]; auto. rewrite bump_app by auto. apply IHn. rewrite bump_length. auto. Qed.
Lemma bumpn_last : forall n T ty s e z p, bumpn n (length T) (T ++ [mkTok ty s e z p]) = T ++ [mkTok ty s e (z + Z.of_nat n) p].
Proof.
  induction n; intros; cbn [bumpn]; [do 3 f_equal; lia|].
  cbn [bump]. rewrite upd_mid. unfold incr_size. cbn. rewrite IHn. do 3 f_equal. lia.
Qed.

Lemma find_open_mid : forall T A K, is_open A = true -> Forall (fun t => is_open t = false) K ->
  find_open (length (T ++ A :: K)) (T ++ A :: K) = Some (length T).
Proof.
  intros T A K HA HK. rewrite (find_open_cut _ (S (length T))).
  - cbn [find_open]. rewrite nth_error_app2, Nat.sub_diag by lia. cbn. rewrite HA. auto.
  - rewrite app_length; simpl; lia.
  - intros j t Hj Ht. rewrite nth_error_app2 in Ht by lia.
    replace (j - length T)%nat with (S (j - S (length T))) in Ht by lia. cbn in Ht.
    rewrite Forall_forall in HK. apply HK. eapply nth_error_In; eauto.
Qed.

Lemma skipn_at : forall js p c r, skipn p js = c :: r -> at_ js p = c /\ skipn (S p) js = r.
Proof.
  intros js p c r H. unfold at_. split.
  - pose proof (skipn_nth _ js p 0) as N. rewrite H, Nat.add_0_r in N. cbn in N. symmetry in N. apply nth_error_nth; auto.
  - revert js H. induction p; intros [|x js] H; cbn in *; try discriminate; [congruence|]. apply IHp; auto.
Qed.
Lemma skipn_shift : forall (A : Type) (l : list A) p a r, skipn p l = a ++ r -> skipn (p + length a) l = r.
Proof.
  intros A l p a r H. pose proof (f_equal (skipn (length a)) H) as X.
  rewrite skipn_app_exact in X. rewrite <- X. clear.
  revert p. induction l; intros [|p]; cbn [skipn Nat.add]; auto; rewrite ?skipn_nil; auto.
Qed.

(** ** Single characters *)
Ltac step_at H := unfold step; destruct H as [-> _]; cbn [orb andb Z.eqb Pos.eqb Z.leb Z.compare Pos.compare Pos.compare_cont].

Lemma step_space : forall st js s r, skipn (pos s) js = 32 :: r ->
  step st js s = inl (mkP (S (pos s)) (toks s) (super s) (index s) (cur s)).
Proof. intros st js s r H. apply skipn_at in H. step_at H. reflexivity. Qed.

Lemma ctx_move : forall s p, ctx s -> ctx (mkP p (toks s) (super s) (index s) (cur s)).
Proof. intros s p X. constructor; cbn; apply X. Qed.

Lemma step_comma : forall st js s r k, skipn (pos s) js = 44 :: r -> ctx s -> cur s = Some k ->
  step st js s = inl (mkP (S (pos s)) (toks s) (super s) (index s) (cur s)).
Proof.
  intros st js s r k H X Hk. apply skipn_at in H. step_at H. destruct (x_cur _ X _ Hk) as (t & Ht & C).
  rewrite Hk. cbn [type_of]. rewrite Ht. cbn [option_map is_type].
  destruct st; cbn [negb orb]; auto. destruct C as [C|C]; rewrite C; reflexivity.
Qed.
Lemma step_colon : forall st js s r k i t, skipn (pos s) js = 58 :: r -> ctx s -> cur s = Some k ->
  super s = Some i -> nth_error (toks s) i = Some t -> tty t = Obj ->
  step st js s = inl (mkP (S (pos s)) (toks s) (super s) (index s) (cur s)).
Proof.
  intros st js s r k i t H X Hk Hi Ht HO. apply skipn_at in H. step_at H. destruct (x_cur _ X _ Hk) as (u & Hu & C).
  rewrite Hk, Hi. cbn [type_of]. rewrite Hu, Ht. cbn [option_map is_type]. rewrite HO. cbn [toktype_eqb negb]. rewrite andb_false_r.
  destruct st; cbn [negb orb]; auto. destruct C as [C|C]; rewrite C; reflexivity.
Qed.
Lemma step_open : forall st js s r ty c, skipn (pos s) js = c :: r -> (ty = Obj /\ c = 123 \/ ty = Arr /\ c = 91) ->
  step st js s = inl (mkP (S (pos s)) (bump (super s) (toks s) ++ [mkTok ty (Z.of_nat (pos s)) (-1) 0 (par_of (super s))])
     (Some (length (toks s))) (Some (length (toks s))) (Some (length (toks s)))).
Proof. intros st js s r ty c H [[-> ->]|[-> ->]]; apply skipn_at in H; step_at H; reflexivity. Qed.
Lemma step_close : forall st js s r ty c T1 A K, skipn (pos s) js = c :: r -> (ty = Obj /\ c = 125 \/ ty = Arr /\ c = 93) ->
  toks s = T1 ++ A :: K -> is_open A = true -> tty A = ty -> Forall (fun t => is_open t = false) K ->
  step st js s = inl (mkP (S (pos s)) (T1 ++ set_end (Z.of_nat (pos s) + 1) A :: K) (find_open (length T1) T1) (index s)
     (match find_open (length T1) T1 with Some j => Some j | None => Some 0%nat end)).
Proof.
  intros st js s r ty c T1 A K H Hc HT HA Hty HK.
  assert (E : step st js s = match find_open (length (toks s)) (toks s) with
    | None => inr (INVAL, pos s)
    | Some i =>
        if negb (is_type (type_of (toks s) (Some i)) ty) then inr (INVAL, pos s)
        else
          let ts := upd (toks s) i (set_end (Z.of_nat (pos s) + 1)) in
          match find_open (S i) ts with
          | Some j => inl (mkP (S (pos s)) ts (Some j) (index s) (Some j))
          | None => inl (mkP (S (pos s)) ts None (index s) (Some 0%nat))
          end
    end).
  { destruct Hc as [[-> ->]|[-> ->]]; apply skipn_at in H; step_at H; reflexivity. }
  rewrite E, HT, find_open_mid by auto. cbn [type_of]. rewrite nth_error_app2, Nat.sub_diag by lia. cbn [nth_error option_map is_type].
  rewrite Hty. assert (toktype_eqb ty ty = true) as -> by (destruct ty; auto). cbn [negb]. cbv zeta.
  rewrite upd_mid. cbn [find_open]. rewrite nth_error_app2, Nat.sub_diag by lia. cbn [nth_error].
  assert (is_open (set_end (Z.of_nat (pos s) + 1) A) = false) as ->.
  { unfold is_open. cbn [set_end tst ten]. destruct (Z.of_nat (pos s) + 1 =? -1) eqn:Y; [b2p; lia|]. apply andb_false_r. }
  rewrite find_open_app by lia. destruct (find_open (length T1) T1); reflexivity.
Qed.
Lemma step_str : forall st js s r n k i, skipn (pos s) js = 34 :: r -> str_scan r = inl n -> super s = Some k -> index s = Some i ->
  step st js s = inl (mkP (S (S (pos s) + n)) (bump (super s) (toks s ++ [mkTok Str (Z.of_nat (pos s) + 1) (Z.of_nat (pos s) + 1 + Z.of_nat n) 0 (par_of (super s))]))
     (super s) (index s) (index s)).
Proof.
  intros st js s r n k i H HS Hk Hi. apply skipn_at in H. unfold step. destruct H as [H1 H2]. rewrite H1. cbn [orb andb Z.eqb Pos.eqb].
  rewrite H2, HS, Hk, Hi. do 6 f_equal; lia.
Qed.
Lemma step_prim : forall st js s t d r c t' i, t = c :: t' -> (c = 45 \/ 48 <= c <= 57 \/ c = 116 \/ c = 102 \/ c = 110) ->
  Forall prim_char t -> d = 32 \/ d = 44 -> skipn (pos s) js = t ++ d :: r -> index s = Some i ->
  step st js s = inl (mkP (pos s + length t) (bump (super s) (toks s ++ [mkTok Prim (Z.of_nat (pos s)) (Z.of_nat (pos s) + lenZ t) 0 (par_of (super s))]))
     (super s) (index s) (index s)).
Proof.
  intros st js s t d r c t' i Ht Hc HP Hd H Hi.
  assert (H' := H). rewrite Ht in H'. cbn [app] in H'. apply skipn_at in H' as [H' _].
  unfold step. rewrite H, (prim_scan_text st t d r HP Hd), H', Hi.
  repeat match goal with |- context [c =? ?k] =>
    match k with 45 => fail 1 | 116 => fail 1 | 102 => fail 1 | 110 => fail 1 | _ => destruct (c =? k) eqn:?; [b2p; lia|] end end.
  cbn [orb andb].
  assert (M : (c =? 45) || ((48 <=? c) && (c <=? 57)) || (c =? 116) || (c =? 102) || (c =? 110) = true).
  { destruct Hc as [->|[Hc|[->|[->| ->]]]]; try reflexivity.
    destruct (48 <=? c) eqn:X1; [|b2p; lia]. destruct (c <=? 57) eqn:X2; [|b2p; lia]. cbn [andb orb]. rewrite orb_true_r. reflexivity. }
  rewrite M. cbn [negb]. rewrite andb_false_r. unfold lenZ. do 6 f_equal. lia.
Qed.

(** context after a step that appends a closed token inside a container *)
Lemma ctx_append : forall s t p k i, ctx s -> super s = Some k -> index s = Some i -> is_open t = false ->
  ctx (mkP p (bump (super s) (toks s ++ [t])) (super s) (index s) (index s)).
Proof.
  intros s t p k i X Hk Hi Ho. constructor; cbn [toks super index cur].
  - rewrite bump_length, find_open_bump, app_length. cbn [length]. rewrite Nat.add_1_r. cbn [find_open].
    rewrite nth_error_app2, Nat.sub_diag by lia. cbn [nth_error]. rewrite Ho, find_open_app by lia. apply X.
  - intros j Hj. apply ctype_bump, ctype_app. apply X. auto.
  - intros j Hj. apply ctype_bump, ctype_app. apply X. auto.
  - intros j Hj. destruct (x_in _ X j Hj) as (A & B & C). split; [apply ctype_bump, ctype_app; auto|]. auto.
Qed.

Definition delim (r : list Z) : Prop := exists d q, r = d :: q /\ (d = 32 \/ d = 44).
Definition iscont (v : jval) : Prop := match v with JArr _ | JObj _ => True | _ => False end.

Definition runs (st : bool) (js : list Z) (v : jval) : Prop :=
  forall s rest, ctx s -> skipn (pos s) js = txt v ++ rest ->
  (super s = None -> toks s = [] /\ iscont v) -> (super s <> None -> delim rest) ->
  exists idx cu,
    let s' := mkP (pos s + length (txt v)) (bump (super s) (toks s) ++ ptoks v (length (toks s)) (par_of (super s)) (Z.of_nat (pos s)))
                  (super s) idx cu in
    reach st js s s' /\ ctx s'.

Lemma cat_delim : forall l rest, delim rest -> delim (cat false l ++ rest).
Proof. intros [|t l] rest H; cbn [cat app]; auto. exists 44. eexists. split; [reflexivity|auto]. Qed.

Lemma elems_run : forall st js i l first s rest, Forall (runs st js) l -> ctx s -> super s = Some i ->
  skipn (pos s) js = cat first (map txt l) ++ rest -> delim rest ->
  exists idx cu,
    let s' := mkP (pos s + length (cat first (map txt l))) (bumpn (length l) i (toks s) ++ arr_kids i first l (length (toks s)) (Z.of_nat (pos s)))
                  (Some i) idx cu in
    reach st js s s' /\ ctx s'.
Proof.
  intros st js i. induction l as [|v l IH]; intros first s rest HP X Hi H HD.
  - cbn [map cat length arr_kids bumpn]. exists (index s), (cur s). rewrite Nat.add_0_r, app_nil_r, <- Hi.
    destruct s; split; [apply reach_refl|auto].
  - inversion HP as [|? ? Hv Hl]; subst. cbn [map] in *.
    assert (PRE : exists s1, reach st js s s1 /\ ctx s1 /\ super s1 = Some i /\ toks s1 = toks s /\ 
      pos s1 = (pos s + (if first then 0 else 2))%nat /\ skipn (pos s1) js = txt v ++ cat false (map txt l) ++ rest).
    { destruct first.
      - exists s. rewrite Nat.add_0_r. cbn [cat app] in H. rewrite <- app_assoc in H.
        split; [apply reach_refl|]. auto.
      - cbn [cat app] in H. rewrite <- app_assoc in H.
        destruct (x_in _ X i Hi) as (_ & _ & CN). destruct (cur s) as [k|] eqn:Ck; [|congruence].
        pose proof (step_comma st js s _ k H X Ck) as S1.
        pose proof (skipn_at _ _ _ _ H) as [A1 G1].
        set (s1 := mkP (S (pos s)) (toks s) (super s) (index s) (cur s)) in *.
        pose proof (step_space st js s1 _ G1) as S2. pose proof (skipn_at _ _ _ _ G1) as [A2 G2].
        eexists. split; [eapply reach_trans; (eapply reach_step; [|eassumption]); rewrite ?A1; [lia|change (pos s1) with (S (pos s)); rewrite A2; lia]|].
        split; [apply ctx_move, ctx_move; auto|]. cbn [super toks pos]. repeat split; auto. subst s1; cbn [pos]; lia. }
    destruct PRE as (s1 & R1 & X1 & Hi1 & HT1 & HP1 & H1').
    destruct (Hv s1 (cat false (map txt l) ++ rest) X1 H1') as (idx & cu & R2 & X2).
    { congruence. }
    { intros _. apply cat_delim; auto. }
    cbv zeta in R2, X2. rewrite Hi1, HT1 in *.
    set (s2 := mkP _ _ _ _ _) in R2, X2.
    destruct (IH false s2 rest Hl X2 eq_refl) as (idx' & cu' & R3 & X3); auto.
    { subst s2. cbn [pos]. apply skipn_shift. auto. }
    cbv zeta in R3, X3. exists idx', cu'. cbv zeta.
    assert (EQ : mkP (pos s2 + length (cat false (map txt l)))
         (bumpn (length l) i (toks s2) ++ arr_kids i false l (length (toks s2)) (Z.of_nat (pos s2))) (Some i) idx' cu' =
       mkP (pos s + length (cat first (txt v :: map txt l)))
         (bumpn (length (v :: l)) i (toks s) ++ arr_kids i first (v :: l) (length (toks s)) (Z.of_nat (pos s))) (Some i) idx' cu').
    { pose proof (super_lt _ _ X Hi) as LT.
      subst s2. cbn [toks pos cat length bumpn arr_kids]. cbv zeta. rewrite HP1.
      rewrite bumpn_app by (rewrite bump_length; auto). rewrite !app_length, bump_length, <- app_assoc.
      cbn [par_of]. unfold lenZ. f_equal.
      - destruct first; cbn [length]; lia.
      - f_equal. replace (Z.of_nat (pos s + (if first then 0 else 2))) with (Z.of_nat (pos s) + (if first then 0 else 2)) by (destruct first; lia).
        f_equal. f_equal. destruct first; lia. }
    rewrite EQ in R3, X3. split; auto. eapply reach_trans; [exact R1|]. eapply reach_trans; [exact R2|]. exact R3.
Qed.

Lemma scan_key : forall k r, plain_key k -> str_scan (k ++ 34 :: r) = inl (length k).
Proof.
  induction 1 as [|c k (H1 & H2 & H3) Hk IH]; [reflexivity|]. cbn [app length]. rewrite scan_plain by auto. rewrite IH. auto.
Qed.

Lemma fields_run : forall st js i l first s rest, Forall (fun kv => runs st js (snd kv)) l -> Forall (fun kv => plain_key (fst kv)) l ->
  ctx s -> super s = Some i -> (exists t, nth_error (toks s) i = Some t /\ tty t = Obj) ->
  skipn (pos s) js = cat first (map (fun kv => 34 :: fst kv ++ 34 :: 58 :: txt (snd kv)) l) ++ rest -> delim rest ->
  exists idx cu,
    let s' := mkP (pos s + length (cat first (map (fun kv => 34 :: fst kv ++ 34 :: 58 :: txt (snd kv)) l)))
                  (bumpn (2 * length l) i (toks s) ++ obj_kids i first l (length (toks s)) (Z.of_nat (pos s)))
                  (Some i) idx cu in
    reach st js s s' /\ ctx s'.
Proof.
  intros st js i. induction l as [|[k v] l IH]; intros first s rest HP HK X Hi HO H HD.
  - cbn [map cat length obj_kids bumpn Nat.mul Nat.add]. exists (index s), (cur s). rewrite Nat.add_0_r, app_nil_r, <- Hi.
    destruct s; split; [apply reach_refl|auto].
  - inversion HP as [|? ? Hv Hl]; subst. inversion HK as [|? ? Hk Hkl]; subst. cbn [map fst snd] in *.
    set (L := map (fun kv : list Z * jval => 34 :: fst kv ++ 34 :: 58 :: txt (snd kv)) l) in *.
    assert (PRE : exists s1, reach st js s s1 /\ ctx s1 /\ super s1 = Some i /\ toks s1 = toks s /\ 
      pos s1 = (pos s + (if first then 0 else 2))%nat /\ skipn (pos s1) js = 34 :: k ++ 34 :: 58 :: txt v ++ cat false L ++ rest).
    { destruct first.
      - exists s. rewrite Nat.add_0_r. cbn [cat app] in H. repeat (rewrite <- !app_assoc in H; cbn [app] in H).
        split; [apply reach_refl|]. auto.
      - cbn [cat app] in H. repeat (rewrite <- !app_assoc in H; cbn [app] in H).
        destruct (x_in _ X i Hi) as (_ & _ & CN). destruct (cur s) as [kk|] eqn:Ck; [|congruence].
        pose proof (step_comma st js s _ kk H X Ck) as S1.
        pose proof (skipn_at _ _ _ _ H) as [A1 G1].
        set (s1 := mkP (S (pos s)) (toks s) (super s) (index s) (cur s)) in *.
        pose proof (step_space st js s1 _ G1) as S2. pose proof (skipn_at _ _ _ _ G1) as [A2 G2].
        eexists. split; [eapply reach_trans; (eapply reach_step; [|eassumption]); rewrite ?A1; [lia|change (pos s1) with (S (pos s)); rewrite A2; lia]|].
        split; [apply ctx_move, ctx_move; auto|]. cbn [super toks pos]. repeat split; auto. subst s1; cbn [pos]; lia. }
    destruct PRE as (s1 & R1 & X1 & Hi1 & HT1 & HP1 & G1).
    (* the key *)
    destruct (x_in _ X1 i Hi1) as (_ & IN & _). destruct (index s1) as [m|] eqn:Im; [|congruence].
    pose proof (step_str st js s1 _ _ i m G1 (scan_key _ _ Hk) Hi1 Im) as S2.
    pose proof (skipn_at _ _ _ _ G1) as [A1 G2].
    set (kt := mkTok Str (Z.of_nat (pos s1) + 1) (Z.of_nat (pos s1) + 1 + Z.of_nat (length k)) 0 (par_of (super s1))) in *.
    assert (KO : is_open kt = false).
    { unfold is_open, kt. cbn [tst ten]. destruct (Z.of_nat (pos s1) + 1 + Z.of_nat (length k) =? -1) eqn:Y; [b2p; lia|]. apply andb_false_r. }
    pose proof (ctx_append s1 kt (S (S (pos s1) + length k)) i m X1 Hi1 Im KO) as X2.
    set (s2 := mkP (S (S (pos s1) + length k)) (bump (super s1) (toks s1 ++ [kt])) (super s1) (index s1) (index s1)) in *.
    apply skipn_shift in G2.
    assert (G3 : skipn (pos s2) js = 58 :: txt v ++ cat false L ++ rest).
    { subst s2. cbn [pos]. apply skipn_at in G2 as [_ G2]. auto. }
    destruct HO as (tO & HO1 & HO2).
    assert (HO' : exists t, nth_error (toks s2) i = Some t /\ tty t = Obj).
    { subst s2. cbn [toks]. rewrite Hi1, HT1, bump_nth, Nat.eqb_refl, nth_error_app1, HO1 by (apply nth_error_Some; congruence).
      cbn. eauto. }
    destruct HO' as (tO' & HO3 & HO4).
    assert (cur s2 = Some m) as Cm by (subst s2; cbn; auto).
    pose proof (step_colon st js s2 _ m i tO' G3 X2 Cm Hi1 HO3 HO4) as S3.
    pose proof (skipn_at _ _ _ _ G3) as [A3 G4].
    set (s3 := mkP (S (pos s2)) (toks s2) (super s2) (index s2) (cur s2)) in *.
    assert (X3 : ctx s3) by (apply ctx_move; auto).
    destruct (Hv s3 (cat false L ++ rest) X3 G4) as (idx & cu & R4 & X4).
    { intros N. cbn in N. congruence. }
    { intros _. apply cat_delim; auto. }
    cbv zeta in R4, X4.
    assert (Hi3 : super s3 = Some i) by auto.
    rewrite Hi3 in R4, X4.
    set (s4 := mkP _ _ _ _ _) in R4, X4.
    destruct (IH false s4 rest Hl Hkl X4 eq_refl) as (idx' & cu' & R5 & X5); auto.
    { subst s4. cbn [toks]. pose proof (bump_nth (Some i) (toks s3) i) as BN. cbv beta iota in BN. rewrite Nat.eqb_refl in BN. 
      rewrite nth_error_app1; [rewrite BN|].
      - change (toks s3) with (toks s2). rewrite HO3. cbn. eauto.
      - rewrite bump_length. apply nth_error_Some. change (toks s3) with (toks s2). congruence. }
    { subst s4. cbn [pos]. apply skipn_shift. auto. }
    cbv zeta in R5, X5. exists idx', cu'. cbv zeta.
    assert (EQ : mkP (pos s4 + length (cat false L))
         (bumpn (2 * length l) i (toks s4) ++ obj_kids i false l (length (toks s4)) (Z.of_nat (pos s4))) (Some i) idx' cu' =
       mkP (pos s + length (cat first ((34 :: k ++ 34 :: 58 :: txt v) :: L)))
         (bumpn (2 * length ((k, v) :: l)) i (toks s) ++ obj_kids i first ((k, v) :: l) (length (toks s)) (Z.of_nat (pos s))) (Some i) idx' cu').
    { pose proof (super_lt _ _ X Hi) as LT.
      replace (2 * length ((k, v) :: l))%nat with (S (S (2 * length l))) by (cbn [length]; lia).
      subst s4 s3 s2. cbn [toks pos cat bumpn obj_kids super]. cbv zeta. rewrite Hi1, HT1 in *.
      rewrite (bump_app i (toks s) [kt]) by auto. rewrite (bump_app i (bump (Some i) (toks s)) [kt]) by (rewrite bump_length; auto).
      rewrite <- !app_assoc.
      rewrite bumpn_app by (rewrite !bump_length; auto).
      rewrite !app_length, !bump_length. cbn [length par_of]. rewrite <- app_assoc. cbn [app length]. 
      repeat (rewrite !app_length; cbn [length]). unfold lenZ, kt.
      rewrite HP1. cbn [par_of].
      assert (EP : Z.of_nat (pos s + (if first then 0 else 2)) = Z.of_nat (pos s) + (if first then 0 else 2)) by (destruct first; lia).
      f_equal; [destruct first; cbn [length]; lia|]. f_equal. rewrite EP. rewrite Nat.add_1_r.
      rewrite ?Hi1; cbn [par_of]. apply f_equal2; [reflexivity|]. replace (Z.of_nat (S (S (S (pos s + (if first then 0 else 2)) + length k)))) with (Z.of_nat (pos s) + (if first then 0 else 2) + Z.of_nat (length k) + 3) by (destruct first; lia).
      f_equal. f_equal; destruct first; lia. }
    rewrite EQ in R5, X5. split; auto.
    eapply reach_trans; [exact R1|]. eapply reach_trans; [eapply reach_step; [|exact S2]; rewrite A1; lia|].
    eapply reach_trans; [eapply reach_step; [|exact S3]; rewrite A3; lia|].
    eapply reach_trans; [exact R4|]. exact R5.
Qed.

End Prec.
