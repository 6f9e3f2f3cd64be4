(** Tokens of a value, and the value generated back from them. *)
From Coq Require Import ZArith List Bool Lia.
From Verif Require Import Bits UtfModel UtfSpec UtfProofs CodecModel TreeModel TreeSpec TreeProps JsonModel JsonSpec JsonProofs JsonProofs2 JsonProofs3 JsonProofs4 NumJson.
From Verif Require NumModel NumSpec.
Import ListNotations.
Local Open Scope Z_scope.

Section Prec.
Context {dp : prec}.

Lemma ptoks_prim : forall v b par off, (v = JNull \/ (exists x, v = JBool x) \/ (exists n, v = JNum n)) ->
  ptoks v b par off = [mkTok Prim off (off + lenZ (txt v)) 0 par].
Proof. intros v b par off [->|[[x ->]|[n ->]]]; reflexivity. Qed.

Lemma prim_chars_num : forall t, num_text t -> Forall prim_char t.
Proof. intros t (_ & _ & H). eapply Forall_impl; [|exact H]. intros c Hc. unfold num_char in Hc. cbn [In] in Hc. unfold prim_char. lia. Qed.

Lemma leaf_run : forall st js s v rest c t', ctx s -> skipn (pos s) js = txt v ++ rest ->
  (v = JNull \/ (exists x, v = JBool x) \/ (exists n, v = JNum n)) ->
  txt v = c :: t' -> (c = 45 \/ 48 <= c <= 57 \/ c = 116 \/ c = 102 \/ c = 110) -> Forall prim_char (txt v) ->
  super s <> None -> delim rest ->
  exists idx cu,
    let s' := mkP (pos s + length (txt v)) (bump (super s) (toks s) ++ ptoks v (length (toks s)) (par_of (super s)) (Z.of_nat (pos s)))
                  (super s) idx cu in
    reach st js s s' /\ ctx s'.
Proof.
  intros st js s v rest c t' X H HV HT HC HP HS (d & q & -> & Hd).
  destruct (super s) as [i|] eqn:Hi; [clear HS|congruence].
  destruct (x_in _ X i Hi) as (_ & IN & _). destruct (index s) as [m|] eqn:Im; [|congruence].
  pose proof (step_prim st js s (txt v) d q c t' m HT HC HP Hd H Im) as S1.
  exists (index s), (index s). cbv zeta.
  set (t := mkTok Prim (Z.of_nat (pos s)) (Z.of_nat (pos s) + lenZ (txt v)) 0 (par_of (super s))) in *.
  assert (EQ : bump (Some i) (toks s) ++ ptoks v (length (toks s)) (par_of (Some i)) (Z.of_nat (pos s)) = bump (super s) (toks s ++ [t])).
  { rewrite ptoks_prim by auto. rewrite Hi, bump_app by (eapply super_lt; eauto). subst t. rewrite Hi. reflexivity. }
  rewrite EQ. rewrite <- Hi. split.
  - eapply reach_step; [|exact S1]. rewrite HT in H. cbn [app] in H. apply skipn_at in H as [-> _]. lia.
  - eapply ctx_append; eauto. unfold is_open, t. cbn [tst ten]. unfold lenZ.
    destruct (_ =? -1) eqn:Y at 2; [b2p; lia|]. apply andb_false_r.
Qed.

Lemma json_string_text : forall cs, Forall bmp cs -> json_string (text cs) = 34 :: flat_map esc1 cs ++ [34].
Proof. intros. unfold json_string. rewrite escape_text; auto. Qed.

Lemma val_run : forall M st js v, json_tree dp M v -> runs st js v.
Proof.
  intros M st js v. induction v using jval_ind'; intros OK s rest X HT HN HS.
  - inversion OK.
  - assert (super s <> None) as SN by (intros N; destruct (HN N) as [_ []]).
    apply (leaf_run st js s JNull rest 110 [117; 108; 108]); auto. repeat constructor; unfold prim_char; lia.
  - assert (super s <> None) as SN by (intros N; destruct (HN N) as [_ []]).
    destruct b; [apply (leaf_run st js s (JBool true) rest 116 [114; 117; 101])|apply (leaf_run st js s (JBool false) rest 102 [97; 108; 115; 101])]; eauto;
      try lia; repeat constructor; unfold prim_char; lia.
  - assert (super s <> None) as SN by (intros N; destruct (HN N) as [_ []]).
    inversion OK; subst. destruct (carried_text dp n H0) as [NT _]. pose proof NT as (NE & NF & _).
    destruct (NumModel.num_to_json dp n) as [|c t'] eqn:E; [congruence|]. cbn in NF.
    apply (leaf_run st js s (JNum n) rest c t'); eauto; [lia|]. cbn [txt]. rewrite E. apply prim_chars_num; auto.
  - assert (super s <> None) as SN by (intros N; destruct (HN N) as [_ []]).
    inversion OK as [| | |cs Hcs| |]; subst. clear HN. destruct (HS SN) as (d & q & -> & Hd).
    destruct (super s) as [i|] eqn:Hi; [clear SN|congruence].
    destruct (x_in _ X i Hi) as (_ & IN & _). destruct (index s) as [m|] eqn:Im; [|congruence].
    cbn [txt] in *. rewrite json_string_text in * by auto. cbn [app] in HT. rewrite <- app_assoc in HT. cbn [app] in HT.
    pose proof (step_str st js s _ _ i m HT (scan_text cs Hcs _) Hi Im) as S1.
    exists (index s), (index s). cbv zeta.
    set (t := mkTok Str _ _ _ _) in S1.
    assert (EQ : bump (Some i) (toks s) ++ ptoks (JStr (text cs)) (length (toks s)) (par_of (Some i)) (Z.of_nat (pos s)) = bump (super s) (toks s ++ [t])).
    { rewrite Hi, bump_app by (eapply super_lt; eauto). f_equal. cbn [ptoks txt]. rewrite json_string_text by auto.
      subst t. rewrite Hi. unfold lenZ. cbn [length]. rewrite app_length. cbn [length]. do 2 f_equal. lia. }
    rewrite EQ, <- Hi. cbn [length]. rewrite app_length. cbn [length].
    replace (pos s + S (length (flat_map esc1 cs) + 1))%nat with (S (S (pos s) + length (flat_map esc1 cs))) by lia.
    split.
    + eapply reach_step; [|exact S1]. apply skipn_at in HT as [-> _]. lia.
    + eapply ctx_append; eauto. unfold is_open, t. cbn [tst ten].
      destruct (_ =? -1) eqn:Y at 2; [b2p; lia|]. apply andb_false_r.
  - apply ok_arr_inv in OK as [OK _].
    assert (HR : Forall (runs st js) l).
    { apply Forall_forall. intros v Hv. rewrite Forall_forall in H, OK. apply H; auto. }
    clear H OK.
    set (i := length (toks s)).
    set (T1 := bump (super s) (toks s)).
    assert (LT1 : length T1 = i) by (subst T1 i; apply bump_length).
    assert (FO1 : find_open (length T1) T1 = super s) by (rewrite LT1; subst T1; rewrite find_open_bump; symmetry; apply X).
    assert (FIN : forall p ty e sz idx k K, ty = Obj \/ ty = Arr -> Forall (fun t => is_open t = false) K ->
      let T := T1 ++ mkTok ty (Z.of_nat (pos s)) e sz (par_of (super s)) :: K in
      0 <= e -> k = (match super s with Some j => Some j | None => Some 0%nat end) ->
      (forall x, idx = Some x -> ctype T x) -> idx <> None ->
      ctx (mkP p T (super s) idx k)).
    { intros p ty e sz idx k K Hty HK T He Hk HI HIN.
      assert (OPN : Forall (fun t => is_open t = false) (mkTok ty (Z.of_nat (pos s)) e sz (par_of (super s)) :: K)).
      { constructor; auto. unfold is_open. cbn [tst ten]. destruct (e =? -1) eqn:Y; [b2p; lia|]. apply andb_false_r. }
      assert (CK : forall x, k = Some x -> ctype T x).
      { intros x Hx. subst k. destruct (super s) as [j|] eqn:Sj.
        - injection Hx as <-. apply ctype_app. subst T1. apply ctype_bump. eapply (proj1 (x_in _ X _ ltac:(eassumption))).
        - injection Hx as <-. destruct (HN eq_refl) as [HE _]. exists (mkTok ty (Z.of_nat (pos s)) e sz (-1)).
          subst T T1. rewrite HE. cbn. split; [reflexivity|]. unfold container; cbn; tauto. }
      constructor; cbn [toks super index cur]; auto.
      - rewrite <- FO1. subst T. symmetry. transitivity (find_open (length T1) (T1 ++ mkTok ty (Z.of_nat (pos s)) e sz (par_of (super s)) :: K)).
        + apply find_open_cut; [rewrite app_length; lia|]. intros j t Hj Ht. rewrite nth_error_app2 in Ht by lia.
          rewrite Forall_forall in OPN. apply OPN. eapply nth_error_In; eauto.
        + apply find_open_app. lia.
      - intros x Hx. split; [|split; [auto|subst k; destruct (super s); discriminate]].
        apply ctype_app. subst T1. apply ctype_bump. eapply (proj1 (x_in _ X _ ltac:(eassumption))). }
    destruct l as [|v l].
    + cbn [txt app] in HT. pose proof (step_open st js s _ Arr 91 HT ltac:(auto)) as S1.
      pose proof (skipn_at _ _ _ _ HT) as [A1 H1]. fold i T1 in S1.
      set (s1 := mkP _ _ _ _ _) in S1.
      pose proof (step_close st js s1 _ Arr 93 T1 (mkTok Arr (Z.of_nat (pos s)) (-1) 0 (par_of (super s))) [] H1 ltac:(auto) eq_refl) as S2.
      specialize (S2 ltac:(unfold is_open; cbn [tst ten]; destruct (Z.of_nat (pos s) =? -1) eqn:Y; [b2p; lia|reflexivity]) eq_refl ltac:(constructor)).
      pose proof (skipn_at _ _ _ _ H1) as [A2 _]. rewrite FO1 in S2. cbn [set_end] in S2.
      exists (Some i), (match super s with Some j => Some j | None => Some 0%nat end). cbv zeta. split.
      * eapply reach_trans; [eapply reach_step; [|exact S1]; rewrite A1; lia|].
        assert (EQ : mkP (S (pos s1)) (T1 ++ [mkTok Arr (Z.of_nat (pos s)) (Z.of_nat (pos s1) + 1) 0 (par_of (super s))]) (super s) (index s1) (match super s with Some j => Some j | None => Some 0%nat end) =
          mkP (pos s + length (txt (JArr []))) (T1 ++ ptoks (JArr []) i (par_of (super s)) (Z.of_nat (pos s))) (super s) (Some i) (match super s with Some j => Some j | None => Some 0%nat end)).
        { subst s1. cbn [pos index ptoks txt length]. unfold lenZ; cbn [length]. f_equal; [lia|]. do 3 f_equal. lia. }
        rewrite <- EQ. eapply reach_step; [change (pos s1) with (S (pos s)); rewrite A2; lia|]. exact S2.
      * rewrite ptoks_arr. apply FIN; auto; [constructor|unfold lenZ; lia| |discriminate].
        intros x Hx. injection Hx as <-. exists (mkTok Arr (Z.of_nat (pos s)) (Z.of_nat (pos s) + lenZ (txt (JArr []))) (@lenZ jval []) (par_of (super s))).
        rewrite <- LT1, nth_error_app2, Nat.sub_diag by lia. split; auto. unfold container; auto.
    + change (txt (JArr (v :: l))) with (91 :: 32 :: cat true (map txt (v :: l)) ++ [32; 93]) in *.
      cbn [app] in HT. rewrite <- app_assoc in HT. cbn [app] in HT.
      pose proof (step_open st js s _ Arr 91 HT ltac:(auto)) as S1.
      pose proof (skipn_at _ _ _ _ HT) as [A1 H1]. fold i T1 in S1.
      set (A0 := mkTok Arr (Z.of_nat (pos s)) (-1) 0 (par_of (super s))) in *.
      set (s1 := mkP _ _ _ _ _) in S1.
      pose proof (step_space st js s1 _ H1) as S2.
      pose proof (skipn_at _ _ _ _ H1) as [A2 H2].
      set (s2 := mkP (S (pos s1)) (toks s1) (super s1) (index s1) (cur s1)) in *.
      assert (OA : is_open A0 = true).
      { subst A0. unfold is_open; cbn [tst ten]. destruct (Z.of_nat (pos s) =? -1) eqn:Y; [b2p; lia|reflexivity]. }
      assert (CI : ctype (T1 ++ [A0]) i).
      { exists A0. rewrite <- LT1, nth_error_app2, Nat.sub_diag by lia. split; auto. unfold container; auto. }
      assert (X2 : ctx s2).
      { constructor; subst s2 s1; cbn [toks super index cur].
        - symmetry. rewrite <- LT1. apply find_open_mid; auto.
        - intros k Hk. injection Hk as <-. auto.
        - intros k Hk. injection Hk as <-. auto.
        - intros k Hk. injection Hk as <-. split; auto. split; discriminate. }
      destruct (elems_run st js i (v :: l) true s2 (32 :: 93 :: rest) HR X2 eq_refl H2) as (idx & cu & R3 & X3).
      { eexists. eexists. split; [reflexivity|auto]. }
      cbv zeta in R3, X3. set (s3 := mkP _ _ _ _ _) in R3, X3.
      assert (H3 : skipn (pos s3) js = 32 :: 93 :: rest) by (subst s3; cbn [pos]; apply skipn_shift; auto).
      pose proof (step_space st js s3 _ H3) as S4. pose proof (skipn_at _ _ _ _ H3) as [A3 H4].
      set (s4 := mkP (S (pos s3)) _ _ _ _) in S4.
      assert (T4 : toks s4 = T1 ++ mkTok Arr (Z.of_nat (pos s)) (-1) (lenZ (v :: l)) (par_of (super s)) ::
         arr_kids i true (v :: l) (S i) (Z.of_nat (pos s) + 2)).
      { subst s4 s3 s2 s1. cbn [toks pos]. rewrite <- LT1 at 1. unfold A0 at 1. rewrite bumpn_last.
        rewrite <- app_assoc. cbn [app]. rewrite app_length, LT1. cbn [length]. rewrite Nat.add_1_r.
        replace (Z.of_nat (S (S (pos s)))) with (Z.of_nat (pos s) + 2) by lia. reflexivity. }
      assert (KC : Forall (fun t => is_open t = false) (arr_kids i true (v :: l) (S i) (Z.of_nat (pos s) + 2))).
      { pose proof (ptoks_closed (JArr (v :: l)) i 0 (Z.of_nat (pos s)) ltac:(lia)) as PC. rewrite ptoks_arr in PC. inversion PC; auto. }
      pose proof (step_close st js s4 _ Arr 93 _ _ _ H4 ltac:(auto) T4) as S5.
      specialize (S5 ltac:(unfold is_open; cbn [tst ten]; destruct (Z.of_nat (pos s) =? -1) eqn:Y; [b2p; lia|reflexivity]) eq_refl KC).
      pose proof (skipn_at _ _ _ _ H4) as [A4 _]. rewrite FO1 in S5. cbn [set_end tty tst tsz tpar] in S5.
      exists idx, (match super s with Some j => Some j | None => Some 0%nat end). cbv zeta.
      set (L := length (cat true (map txt (v :: l)))) in *.
      assert (P4 : pos s4 = (pos s + 3 + L)%nat) by (subst s4 s3 s2 s1 L; cbn [pos]; lia).
      assert (LL : length (91 :: 32 :: cat true (map txt (v :: l)) ++ [32; 93]) = (4 + L)%nat).
      { cbn [length]. rewrite app_length. cbn [length]. subst L. cbn [map]. lia. }
      assert (EQ : mkP (S (pos s4)) (T1 ++ mkTok Arr (Z.of_nat (pos s)) (Z.of_nat (pos s4) + 1) (lenZ (v :: l)) (par_of (super s)) :: arr_kids i true (v :: l) (S i) (Z.of_nat (pos s) + 2)) (super s) (index s4) (match super s with Some j => Some j | None => Some 0%nat end) =
          mkP (pos s + length (91 :: 32 :: cat true (map txt (v :: l)) ++ [32; 93])) (T1 ++ ptoks (JArr (v :: l)) i (par_of (super s)) (Z.of_nat (pos s))) (super s) idx (match super s with Some j => Some j | None => Some 0%nat end)).
      { rewrite ptoks_arr. change (txt (JArr (v :: l))) with (91 :: 32 :: cat true (map txt (v :: l)) ++ [32; 93]).
        replace (lenZ (91 :: 32 :: cat true (map txt (v :: l)) ++ [32; 93])) with (4 + Z.of_nat L) by (unfold lenZ; rewrite LL; lia).
        rewrite LL, P4. f_equal; [lia|]. do 3 f_equal. lia. }
      split.
      * rewrite <- EQ.
        eapply reach_trans; [eapply reach_step; [|exact S1]; rewrite A1; lia|].
        eapply reach_trans; [eapply reach_step; [|exact S2]; change (pos s1) with (S (pos s)); rewrite A2; lia|].
        eapply reach_trans; [exact R3|].
        eapply reach_trans; [eapply reach_step; [|exact S4]; rewrite A3; lia|].
        eapply reach_step; [|exact S5]. change (pos s4) with (S (pos s3)). rewrite A4. lia.
      * rewrite ptoks_arr. apply FIN; auto; [unfold lenZ; lia| |].
        -- intros x Hx. destruct (x_idx _ X3 x Hx) as (t & Ht1 & Ht2). change (toks s3) with (toks s4) in Ht1. rewrite T4 in Ht1.
           destruct (Nat.eq_dec x i) as [->|NE].
           ++ eexists. rewrite <- LT1, nth_error_app2, Nat.sub_diag by lia. split; [reflexivity|]. unfold container; auto.
           ++ exists t. split; auto. destruct (Nat.lt_ge_cases x i).
              ** rewrite nth_error_app1 in * by lia. auto.
              ** rewrite nth_error_app2 in * by lia. rewrite LT1 in *. replace (x - i)%nat with (S (x - S i)) in * by lia. auto.
        -- destruct (x_in _ X3 i eq_refl) as (_ & B & _). exact B.
  - apply ok_obj_inv in OK as (KP & OK).
    assert (HR : Forall (fun kv => runs st js (snd kv)) l).
    { apply Forall_forall. intros v Hv. rewrite Forall_forall in H, OK. apply H; auto. }
    clear H OK.
    set (i := length (toks s)).
    set (T1 := bump (super s) (toks s)).
    assert (LT1 : length T1 = i) by (subst T1 i; apply bump_length).
    assert (FO1 : find_open (length T1) T1 = super s) by (rewrite LT1; subst T1; rewrite find_open_bump; symmetry; apply X).
    assert (FIN : forall p ty e sz idx k K, ty = Obj \/ ty = Arr -> Forall (fun t => is_open t = false) K ->
      let T := T1 ++ mkTok ty (Z.of_nat (pos s)) e sz (par_of (super s)) :: K in
      0 <= e -> k = (match super s with Some j => Some j | None => Some 0%nat end) ->
      (forall x, idx = Some x -> ctype T x) -> idx <> None ->
      ctx (mkP p T (super s) idx k)).
    { intros p ty e sz idx k K Hty HK T He Hk HI HIN.
      assert (OPN : Forall (fun t => is_open t = false) (mkTok ty (Z.of_nat (pos s)) e sz (par_of (super s)) :: K)).
      { constructor; auto. unfold is_open. cbn [tst ten]. destruct (e =? -1) eqn:Y; [b2p; lia|]. apply andb_false_r. }
      assert (CK : forall x, k = Some x -> ctype T x).
      { intros x Hx. subst k. destruct (super s) as [j|] eqn:Sj.
        - injection Hx as <-. apply ctype_app. subst T1. apply ctype_bump. eapply (proj1 (x_in _ X _ ltac:(eassumption))).
        - injection Hx as <-. destruct (HN eq_refl) as [HE _]. exists (mkTok ty (Z.of_nat (pos s)) e sz (-1)).
          subst T T1. rewrite HE. cbn. split; [reflexivity|]. unfold container; cbn; tauto. }
      constructor; cbn [toks super index cur]; auto.
      - rewrite <- FO1. subst T. symmetry. transitivity (find_open (length T1) (T1 ++ mkTok ty (Z.of_nat (pos s)) e sz (par_of (super s)) :: K)).
        + apply find_open_cut; [rewrite app_length; lia|]. intros j t Hj Ht. rewrite nth_error_app2 in Ht by lia.
          rewrite Forall_forall in OPN. apply OPN. eapply nth_error_In; eauto.
        + apply find_open_app. lia.
      - intros x Hx. split; [|split; [auto|subst k; destruct (super s); discriminate]].
        apply ctype_app. subst T1. apply ctype_bump. eapply (proj1 (x_in _ X _ ltac:(eassumption))). }
    destruct l as [|v l].
    + cbn [txt app] in HT. pose proof (step_open st js s _ Obj 123 HT ltac:(auto)) as S1.
      pose proof (skipn_at _ _ _ _ HT) as [A1 H1]. fold i T1 in S1.
      set (s1 := mkP _ _ _ _ _) in S1.
      pose proof (step_close st js s1 _ Obj 125 T1 (mkTok Obj (Z.of_nat (pos s)) (-1) 0 (par_of (super s))) [] H1 ltac:(auto) eq_refl) as S2.
      specialize (S2 ltac:(unfold is_open; cbn [tst ten]; destruct (Z.of_nat (pos s) =? -1) eqn:Y; [b2p; lia|reflexivity]) eq_refl ltac:(constructor)).
      pose proof (skipn_at _ _ _ _ H1) as [A2 _]. rewrite FO1 in S2. cbn [set_end] in S2.
      exists (Some i), (match super s with Some j => Some j | None => Some 0%nat end). cbv zeta. split.
      * eapply reach_trans; [eapply reach_step; [|exact S1]; rewrite A1; lia|].
        assert (EQ : mkP (S (pos s1)) (T1 ++ [mkTok Obj (Z.of_nat (pos s)) (Z.of_nat (pos s1) + 1) 0 (par_of (super s))]) (super s) (index s1) (match super s with Some j => Some j | None => Some 0%nat end) =
          mkP (pos s + length (txt (JObj []))) (T1 ++ ptoks (JObj []) i (par_of (super s)) (Z.of_nat (pos s))) (super s) (Some i) (match super s with Some j => Some j | None => Some 0%nat end)).
        { subst s1. cbn [pos index ptoks txt length]. unfold lenZ; cbn [length]. f_equal; [lia|]. do 3 f_equal. lia. }
        rewrite <- EQ. eapply reach_step; [change (pos s1) with (S (pos s)); rewrite A2; lia|]. exact S2.
      * rewrite ptoks_obj. apply FIN; auto; [constructor|unfold lenZ; lia| |discriminate].
        intros x Hx. injection Hx as <-. eexists.
        rewrite <- LT1, nth_error_app2, Nat.sub_diag by lia. split; [reflexivity|]. unfold container; auto.
    + set (G := map (fun kv => 34 :: fst kv ++ 34 :: 58 :: txt (snd kv)) (v :: l)) in *.
      change (txt (JObj (v :: l))) with (123 :: 32 :: cat true G ++ [32; 125]) in *.
      cbn [app] in HT. rewrite <- app_assoc in HT. cbn [app] in HT.
      pose proof (step_open st js s _ Obj 123 HT ltac:(auto)) as S1.
      pose proof (skipn_at _ _ _ _ HT) as [A1 H1]. fold i T1 in S1.
      set (A0 := mkTok Obj (Z.of_nat (pos s)) (-1) 0 (par_of (super s))) in *.
      set (s1 := mkP _ _ _ _ _) in S1.
      pose proof (step_space st js s1 _ H1) as S2.
      pose proof (skipn_at _ _ _ _ H1) as [A2 H2].
      set (s2 := mkP (S (pos s1)) (toks s1) (super s1) (index s1) (cur s1)) in *.
      assert (OA : is_open A0 = true).
      { subst A0. unfold is_open; cbn [tst ten]. destruct (Z.of_nat (pos s) =? -1) eqn:Y; [b2p; lia|reflexivity]. }
      assert (CI : ctype (T1 ++ [A0]) i).
      { exists A0. rewrite <- LT1, nth_error_app2, Nat.sub_diag by lia. split; auto. unfold container; auto. }
      assert (X2 : ctx s2).
      { constructor; subst s2 s1; cbn [toks super index cur].
        - symmetry. rewrite <- LT1. apply find_open_mid; auto.
        - intros k Hk. injection Hk as <-. auto.
        - intros k Hk. injection Hk as <-. auto.
        - intros k Hk. injection Hk as <-. split; auto. split; discriminate. }
      destruct (fields_run st js i (v :: l) true s2 (32 :: 125 :: rest) HR KP X2 eq_refl) as (idx & cu & R3 & X3); auto.
      { exists A0. subst s2 s1. cbn [toks]. rewrite <- LT1, nth_error_app2, Nat.sub_diag by lia. auto. }
      { eexists. eexists. split; [reflexivity|auto]. }
      cbv zeta in R3, X3. fold G in R3, X3. set (s3 := mkP _ _ _ _ _) in R3, X3.
      assert (H3 : skipn (pos s3) js = 32 :: 125 :: rest) by (subst s3; cbn [pos]; apply skipn_shift; auto).
      pose proof (step_space st js s3 _ H3) as S4. pose proof (skipn_at _ _ _ _ H3) as [A3 H4].
      set (s4 := mkP (S (pos s3)) _ _ _ _) in S4.
      assert (T4 : toks s4 = T1 ++ mkTok Obj (Z.of_nat (pos s)) (-1) (2 * lenZ (v :: l)) (par_of (super s)) ::
         obj_kids i true (v :: l) (S i) (Z.of_nat (pos s) + 2)).
      { subst s4 s3 s2 s1. cbn [toks pos]. rewrite <- LT1 at 1. unfold A0 at 1. rewrite bumpn_last.
        rewrite <- app_assoc. cbn [app]. rewrite app_length, LT1. cbn [length]. rewrite Nat.add_1_r.
        replace (Z.of_nat (S (S (pos s)))) with (Z.of_nat (pos s) + 2) by lia.
        replace (0 + Z.of_nat (2 * S (length l))) with (2 * lenZ (v :: l)) by (unfold lenZ; cbn [length]; lia). reflexivity. }
      assert (KC : Forall (fun t => is_open t = false) (obj_kids i true (v :: l) (S i) (Z.of_nat (pos s) + 2))).
      { pose proof (ptoks_closed (JObj (v :: l)) i 0 (Z.of_nat (pos s)) ltac:(lia)) as PC. rewrite ptoks_obj in PC. inversion PC; auto. }
      pose proof (step_close st js s4 _ Obj 125 _ _ _ H4 ltac:(auto) T4) as S5.
      specialize (S5 ltac:(unfold is_open; cbn [tst ten]; destruct (Z.of_nat (pos s) =? -1) eqn:Y; [b2p; lia|reflexivity]) eq_refl KC).
      pose proof (skipn_at _ _ _ _ H4) as [A4 _]. rewrite FO1 in S5. cbn [set_end tty tst tsz tpar] in S5.
      exists idx, (match super s with Some j => Some j | None => Some 0%nat end). cbv zeta.
      set (L := length (cat true G)) in *.
      assert (P4 : pos s4 = (pos s + 3 + L)%nat) by (subst s4 s3 s2 s1 L; cbn [pos]; lia).
      assert (LL : length (123 :: 32 :: cat true G ++ [32; 125]) = (4 + L)%nat).
      { cbn [length]. rewrite app_length. cbn [length]. subst L. lia. }
      assert (EQ : mkP (S (pos s4)) (T1 ++ mkTok Obj (Z.of_nat (pos s)) (Z.of_nat (pos s4) + 1) (2 * lenZ (v :: l)) (par_of (super s)) :: obj_kids i true (v :: l) (S i) (Z.of_nat (pos s) + 2)) (super s) (index s4) (match super s with Some j => Some j | None => Some 0%nat end) =
          mkP (pos s + length (123 :: 32 :: cat true G ++ [32; 125])) (T1 ++ ptoks (JObj (v :: l)) i (par_of (super s)) (Z.of_nat (pos s))) (super s) idx (match super s with Some j => Some j | None => Some 0%nat end)).
      { rewrite ptoks_obj. change (txt (JObj (v :: l))) with (123 :: 32 :: cat true G ++ [32; 125]).
        replace (lenZ (123 :: 32 :: cat true G ++ [32; 125])) with (4 + Z.of_nat L) by (unfold lenZ; rewrite LL; lia).
        rewrite LL, P4. f_equal; [lia|]. do 3 f_equal. lia. }
      split.
      * rewrite <- EQ.
        eapply reach_trans; [eapply reach_step; [|exact S1]; rewrite A1; lia|].
        eapply reach_trans; [eapply reach_step; [|exact S2]; change (pos s1) with (S (pos s)); rewrite A2; lia|].
        eapply reach_trans; [exact R3|].
        eapply reach_trans; [eapply reach_step; [|exact S4]; rewrite A3; lia|].
        eapply reach_step; [|exact S5]. change (pos s4) with (S (pos s3)). rewrite A4. lia.
      * rewrite ptoks_obj. apply FIN; auto; [unfold lenZ; lia| |].
        -- intros x Hx. destruct (x_idx _ X3 x Hx) as (t & Ht1 & Ht2). change (toks s3) with (toks s4) in Ht1. rewrite T4 in Ht1.
           destruct (Nat.eq_dec x i) as [->|NE].
           ++ eexists. rewrite <- LT1, nth_error_app2, Nat.sub_diag by lia. split; [reflexivity|]. unfold container; auto.
           ++ exists t. split; auto. destruct (Nat.lt_ge_cases x i).
              ** rewrite nth_error_app1 in * by lia. auto.
              ** rewrite nth_error_app2 in * by lia. rewrite LT1 in *. replace (x - i)%nat with (S (x - S i)) in * by lia. auto.
        -- destruct (x_in _ X3 i eq_refl) as (_ & B & _). exact B.
Qed.

End Prec.
