(** Lemmas for SafeProps.v: pieces and names of paths, path resolution, normalisation *)
From Coq Require Import ZArith List Bool Lia.
From Verif Require Import JsonModel JsonProofs7 SafeModel SafeSpec.
Import ListNotations.
Local Open Scope Z_scope.

Lemma eqb_list_iff : forall a b, eqb_list a b = true <-> a = b.
Proof. intros; split; [apply eqb_list_true|intros ->; apply eqb_list_refl]. Qed.

(** *** pieces *)
Lemma split_is_pieces : forall s, split_slash s = pieces s.
Proof. reflexivity. Qed.
Lemma pieces_nonnil : forall s, pieces s <> [].
Proof. destruct s; cbn; [discriminate|]. destruct (_ =? _); [discriminate|]. destruct (pieces s); discriminate. Qed.
Lemma pieces_app : forall a b, pieces (a ++ 47 :: b) = pieces a ++ pieces b.
Proof.
  induction a as [|c a IH]; intros b; [reflexivity|]. cbn [app pieces]. rewrite IH.
  destruct (c =? 47); [reflexivity|]. pose proof (pieces_nonnil a). destruct (pieces a); [congruence|]. reflexivity.
Qed.
Lemma pieces_noslash : forall s n, In n (pieces s) -> ~ In 47 n.
Proof.
  induction s as [|c s IH]; cbn [pieces]; intros n H; [destruct H as [<-|[]]; auto|].
  destruct (Z.eqb_spec c 47). { destruct H as [<-|H]; auto. }
  pose proof (pieces_nonnil s). destruct (pieces s) as [|p q]; [congruence|].
  destruct H as [<-|H]; [|apply IH; right; auto]. intros [->|X]; [congruence|]. apply (IH p); auto. left; auto.
Qed.
Lemma pieces_single : forall n, ~ In 47 n -> pieces n = [n].
Proof.
  induction n as [|c n IH]; intros H; [reflexivity|]. cbn [pieces]. destruct (Z.eqb_spec c 47); [subst; exfalso; apply H; left; auto|].
  rewrite IH; auto. intro; apply H; right; auto.
Qed.
Lemma names_app : forall a b, names (a ++ 47 :: b) = names a ++ names b.
Proof. intros. unfold names. rewrite pieces_app, filter_app. reflexivity. Qed.
Lemma names_slash : forall b, names (47 :: b) = names b.
Proof. reflexivity. Qed.
Lemma names_single : forall n, n <> [] -> ~ In 47 n -> names n = [n].
Proof. intros. unfold names. rewrite pieces_single by auto. destruct n; [congruence|reflexivity]. Qed.

Definition ctext (l : list (list Z)) : list Z := concat (map (fun n => 47 :: n) l).
Lemma ctext_app : forall a b, ctext (a ++ b) = ctext a ++ ctext b.
Proof. intros. unfold ctext. rewrite map_app, concat_app. reflexivity. Qed.
Lemma pieces_ctext : forall l : list path, Forall (fun n : path => ~ In 47 n) l -> l <> [] -> pieces (ctext l) = [] :: l.
Proof.
  induction l as [|n l IH]; intros H N; [congruence|]. inversion H; subst. unfold ctext. cbn [map concat]. fold (ctext l).
  cbn [app pieces]. rewrite Z.eqb_refl. f_equal. destruct l as [|m l].
  - unfold ctext. cbn. rewrite app_nil_r. apply pieces_single; auto.
  - unfold ctext. cbn [map concat app]. rewrite pieces_app. rewrite pieces_single by auto. cbn [app]. f_equal.
    assert (X : pieces (ctext (m :: l)) = [] :: m :: l) by (apply IH; auto; discriminate).
    unfold ctext in X. cbn [map concat app pieces] in X. rewrite Z.eqb_refl in X. congruence.
Qed.
Lemma filter_all : forall A (f : A -> bool) l, (forall x, In x l -> f x = true) -> filter f l = l.
Proof. induction l as [|a l IH]; intros H; [reflexivity|]. cbn [filter]. rewrite (H a (or_introl eq_refl)). f_equal. apply IH. intros; apply H; right; auto. Qed.
Lemma names_ctext : forall l, Forall plain l -> names (ctext l) = l.
Proof.
  intros l H. destruct l as [|n l]; [reflexivity|]. unfold names. rewrite pieces_ctext; [|eapply Forall_impl; [|exact H]; intros ? X; apply X|discriminate].
  change (filter (fun n0 => negb (is_empty n0)) (n :: l) = n :: l). apply filter_all. intros x X.
  rewrite Forall_forall in H. destruct (H x X) as [Y _]. destruct x; [congruence|reflexivity].
Qed.
Lemma names_text : forall l, Forall plain l -> names (text l) = l.
Proof. intros l H. destruct l; [reflexivity|]. apply (names_ctext (_ :: _)). auto. Qed.
Lemma absolute_text : forall l, absolute (text l).
Proof. destruct l; [exists []; auto|]. unfold text. cbn. eexists. reflexivity. Qed.

(** *** the directory test *)
Lemma prefix_app : forall d s, prefix d s = true <-> exists r, s = d ++ r.
Proof.
  induction d as [|a d IH]; intros s; cbn [prefix].
  - split; auto. intros _. exists s. auto.
  - destruct s as [|b s]; [split; [discriminate|intros [r X]; discriminate]|].
    rewrite andb_true_iff, IH, Z.eqb_eq. split.
    + intros [-> [r ->]]. exists r. reflexivity.
    + intros [r X]. injection X as -> ->. split; auto. exists r; auto.
Qed.
Lemma nth_app_len : forall (d r : list Z) x, nth (length d) (d ++ r) x = hd x r.
Proof. induction d; intros; cbn; auto. destruct r; auto. Qed.
Lemma dir_allows_under : forall s d, dir_allows s d = true -> d <> [] /\ hd 0 d = hd 0 s /\ under (names d) (names s).
Proof.
  intros s d H. unfold dir_allows in H. destruct (eqb_list d []) eqn:E0; [discriminate|].
  assert (N : d <> []) by (intros ->; discriminate).
  destruct (eqb_list d s) eqn:E1. { apply eqb_list_iff in E1. subst. repeat split; auto. exists []. rewrite app_nil_r. auto. }
  destruct (prefix d s) eqn:E2; [|discriminate]. apply prefix_app in E2. destruct E2 as [r ->]. cbn [negb] in H.
  split; auto. split; [destruct d; [congruence|reflexivity]|].
  destruct (Nat.ltb 1 (length d) && (last d 0 =? slash)) eqn:E3.
  - apply andb_true_iff in E3. destruct E3 as [E3 E4]. apply Z.eqb_eq in E4.
    rewrite (app_removelast_last 0 N), E4. rewrite <- app_assoc. unfold slash. cbn [app].
    exists (names r). rewrite !names_app. cbn. rewrite app_nil_r. reflexivity.
  - rewrite nth_app_len in H. apply Z.eqb_eq in H. unfold slash in H. destruct r as [|c r]; [discriminate|]. cbn in H. subst c.
    exists (names r). apply names_app.
Qed.
Lemma dir_allows_complete : forall d f, d <> [] -> under d f -> dir_allows (text f) (text d) = true.
Proof.
  intros d f N [r ->]. unfold dir_allows.
  assert (X : text d = ctext d) by (destruct d; [congruence|reflexivity]).
  assert (Y : text (d ++ r) = ctext d ++ ctext r).
  { rewrite <- ctext_app. destruct d; [congruence|reflexivity]. }
  rewrite X, Y. assert (Z0 : ctext d <> []). { destruct d; [congruence|discriminate]. }
  destruct (eqb_list (ctext d) []) eqn:E. { apply eqb_list_iff in E. congruence. }
  destruct r as [|n r].
  - cbn [ctext map concat]. unfold ctext at 3. cbn [map concat]. rewrite app_nil_r, eqb_list_refl. reflexivity.
  - destruct (eqb_list (ctext d) (ctext d ++ ctext (n :: r))) eqn:E1; auto.
    assert (P : prefix (ctext d) (ctext d ++ ctext (n :: r)) = true) by (apply prefix_app; eexists; reflexivity).
    rewrite P. cbn [negb]. destruct (_ && _); auto. rewrite nth_app_len. reflexivity.
Qed.

(** *** path resolution *)
Lemma walk_eq : forall links fs cur todo, walk links fs cur todo =
  match todo with
  | [] => Some cur
  | c :: rest =>
      if is_empty c || is_dot c then walk links fs cur rest
      else if is_dotdot c then walk links fs (removelast cur) rest
      else match fs (cur ++ [c]) with
           | None => None
           | Some NDir => walk links fs (cur ++ [c]) rest
           | Some NFile => match rest with [] => Some (cur ++ [c]) | _ => None end
           | Some (NLink t) =>
               match links with
               | O => None
               | S l => match t with [] => None | t0 :: _ => walk l fs (if t0 =? 47 then [] else cur) (pieces t ++ rest) end
               end
           end
  end.
Proof. intros. destruct links, todo; reflexivity. Qed.
Lemma Forall_removelast : forall A (P : A -> Prop) l, Forall P l -> Forall P (removelast l).
Proof. induction l as [|a l IH]; intros H; auto. inversion H; subst. cbn. destruct l; [constructor|]. constructor; auto. Qed.
Lemma plain_of : forall c, ~ In 47 c -> is_empty c || is_dot c = false -> is_dotdot c = false -> plain c.
Proof.
  intros c S E1 E2. apply orb_false_iff in E1. destruct E1 as [E0 E1]. repeat split; auto.
  - destruct c; [discriminate|congruence].
  - intros ->. discriminate.
  - intros ->. discriminate.
Qed.
Lemma walk_plain : forall links fs (todo cur c : list path), Forall plain cur -> Forall (fun n : path => ~ In 47 n) todo ->
  walk links fs cur todo = Some c -> Forall plain c.
Proof.
  induction links as [|links IHl]; intros fs todo; induction todo as [|a todo IH]; intros cur c HP HS HW; rewrite walk_eq in HW.
  1,3: injection HW as <-; auto.
  - inversion HS as [|? ? S1 S2]; subst. destruct (is_empty a || is_dot a) eqn:E1; [eapply IH; eauto|].
    destruct (is_dotdot a) eqn:E2; [eapply IH; [| |exact HW]; auto using Forall_removelast|].
    assert (Forall plain (cur ++ [a])). { apply Forall_app; split; auto. constructor; auto. apply plain_of; auto. }
    destruct (fs (cur ++ [a])) as [[| |t]|]; try discriminate; [eapply IH; eauto|].
    destruct todo; [|discriminate]. injection HW as <-. auto.
  - inversion HS as [|? ? S1 S2]; subst. destruct (is_empty a || is_dot a) eqn:E1; [eapply IH; eauto|].
    destruct (is_dotdot a) eqn:E2; [eapply IH; [| |exact HW]; auto using Forall_removelast|].
    assert (Forall plain (cur ++ [a])). { apply Forall_app; split; auto. constructor; auto. apply plain_of; auto. }
    destruct (fs (cur ++ [a])) as [[| |t]|]; try discriminate; [eapply IH; eauto| |].
    + destruct todo; [|discriminate]. injection HW as <-. auto.
    + destruct t as [|t0 t]; [discriminate|]. eapply IHl; [| |exact HW].
      * destruct (t0 =? 47); auto.
      * apply Forall_app; split; auto. apply Forall_forall. intros n Hn. eapply pieces_noslash; eauto.
Qed.
Lemma resolve_plain : forall links fs cwd p c, Forall plain cwd -> resolve links fs cwd p = Some c -> Forall plain c.
Proof.
  intros links fs cwd p c H R. unfold resolve in R. destruct p as [|p0 p]; [discriminate|].
  eapply walk_plain; [| |exact R].
  - destruct (p0 =? 47); auto.
  - apply Forall_forall. intros n Hn. eapply pieces_noslash; eauto.
Qed.

(* without links resolution is textual *)
Lemma walk0_lexical : forall fs todo cur d, walk 0 fs cur todo = Some d -> d = lexical cur todo.
Proof.
  induction todo as [|c todo IH]; intros cur d H; rewrite walk_eq in H; cbn [lexical]; [congruence|].
  destruct (is_empty c || is_dot c); [auto|]. destruct (is_dotdot c); [auto|].
  destruct (fs (cur ++ [c])) as [[| |t]|]; try discriminate; [auto|]. destruct todo; [|discriminate]. injection H as <-. reflexivity.
Qed.
Lemma dir_atb_dir : forall fs l, dir_atb fs l = true -> dir_at fs l.
Proof. intros fs l H. unfold dir_atb in H. destruct l; [left; auto|]. right. destruct (fs _) as [[| |]|]; congruence. Qed.
Lemma app_last_nonnil : forall A (l : list A) x, l ++ [x] <> [].
Proof. destruct l; discriminate. Qed.
Lemma walk0_app : forall L fs ys xs cur d, walk 0 fs cur xs = Some d -> dir_atb fs d = true ->
  walk L fs cur (xs ++ ys) = walk L fs d ys.
Proof.
  intros L fs ys. induction xs as [|c xs IH]; intros cur d H D; rewrite walk_eq in H.
  - injection H as <-. reflexivity.
  - cbn [app]. rewrite walk_eq. destruct (is_empty c || is_dot c); [auto|]. destruct (is_dotdot c); [auto|].
    destruct (fs (cur ++ [c])) as [[| |t]|] eqn:E; try discriminate; [auto|].
    destruct xs; [|discriminate]. injection H as <-. apply dir_atb_dir in D. destruct D as [D|D]; [|congruence].
    exfalso. exact (app_last_nonnil _ _ _ D).
Qed.
Lemma drop_empty_spec : forall l, exists k, l = repeat [] k ++ drop_empty l.
Proof.
  induction l as [|n l [k IH]]; cbn [drop_empty]; [exists 0%nat; reflexivity|]. destruct n; cbn [is_empty]; [|exists 0%nat; reflexivity].
  exists (S k). cbn [repeat app]. f_equal. exact IH.
Qed.
Lemma rev_repeat : forall A (x : A) k, rev (repeat x k) = repeat x k.
Proof.
  induction k; cbn; auto. rewrite IHk. clear. induction k; cbn; auto. rewrite IHk. reflexivity.
Qed.
(* what a creating operation does when no symbolic link is involved *)
Lemma creates0 : forall follow fs (cur todo t : list path), walk_new follow 0 fs cur todo = Some t ->
  exists (pre : list path) (leaf : path) k (d : list path), todo = pre ++ [leaf] ++ repeat [] k /\ is_empty leaf = false /\ is_dot leaf = false /\ is_dotdot leaf = false /\
    walk 0 fs cur pre = Some d /\ dir_atb fs d = true /\ fs (d ++ [leaf]) = None /\ t = d ++ [leaf].
Proof.
  intros follow fs cur todo t H. unfold walk_new in H. destruct (drop_empty_spec (rev todo)) as [k HK].
  destruct (drop_empty (rev todo)) as [|leaf rpre] eqn:E; [discriminate|].
  destruct (is_dot leaf || is_dotdot leaf) eqn:E1; [discriminate|]. apply orb_false_iff in E1. destruct E1 as [E1 E2].
  destruct (walk 0 fs cur (rev rpre)) as [d|] eqn:W; [|discriminate]. destruct (dir_atb fs d) eqn:D; [|discriminate].
  destruct (fs (d ++ [leaf])) as [[| |l]|] eqn:F; try discriminate.
  { destruct follow; discriminate. }
  injection H as <-. exists (rev rpre), leaf, k, d. repeat split; auto.
  - rewrite <- (rev_involutive todo), HK, rev_app_distr, rev_repeat. cbn [rev]. rewrite <- app_assoc. reflexivity.
  - destruct leaf; auto. exfalso. clear -E. induction (rev todo) as [|n l IH]; cbn in E; [discriminate|].
    destruct n; cbn in E; [auto|]. discriminate.
Qed.
Lemma lexical_app : forall xs ys acc, lexical acc (xs ++ ys) = lexical (lexical acc xs) ys.
Proof.
  induction xs as [|c xs IH]; intros ys acc; [reflexivity|]. cbn [app lexical].
  destruct (_ || _); auto. destruct (is_dotdot c); auto.
Qed.
Lemma lexical_empties : forall k acc, lexical acc (repeat [] k) = acc.
Proof. induction k; intros; cbn; auto. Qed.
Lemma creates0_lexical : forall follow fs (cur todo t : list path), walk_new follow 0 fs cur todo = Some t -> t = lexical cur todo.
Proof.
  intros follow fs cur todo t H. destruct (creates0 _ _ _ _ _ H) as (pre & leaf & k & d & -> & E0 & E1 & E2 & W & D & F & ->).
  rewrite lexical_app. cbn [lexical app]. rewrite E0, E1, E2. cbn [orb]. rewrite lexical_empties.
  apply walk0_lexical in W. congruence.
Qed.
Lemma walk_empties : forall L fs k cur, walk L fs cur (repeat [] k) = Some cur.
Proof. induction k; intros; rewrite walk_eq; cbn; auto. Qed.
Lemma creates0_missing : forall follow L fs (cur todo t : list path), walk_new follow 0 fs cur todo = Some t -> walk L fs cur todo = None.
Proof.
  intros follow L fs cur todo t H. destruct (creates0 _ _ _ _ _ H) as (pre & leaf & k & d & -> & E0 & E1 & E2 & W & D & F & ->).
  rewrite (walk0_app _ _ _ _ _ _ W D). rewrite walk_eq. cbn [app]. rewrite E0, E1, E2, F. reflexivity.
Qed.

(** *** normalisation *)
Lemma last_slash_app : forall d n, ~ In 47 n -> last_slash (d ++ 47 :: n) = Some (length d).
Proof.
  induction d as [|c d IH]; intros n H; cbn [app last_slash length].
  - assert (X : last_slash n = None).
    { clear -H. induction n as [|a n IH]; cbn; auto. rewrite IH by (intro; apply H; right; auto).
      unfold slash. destruct (Z.eqb_spec a 47); auto. subst. exfalso. apply H. left; auto. }
    rewrite X. reflexivity.
  - rewrite IH by auto. reflexivity.
Qed.
Lemma pop_ctext_last : forall (init : list path) (n : path), ~ In 47 n -> init <> [] -> pop (ctext (init ++ [n])) = ctext init.
Proof.
  intros init n H N. rewrite ctext_app. unfold ctext at 2. cbn [map concat]. rewrite app_nil_r. unfold pop.
  rewrite last_slash_app by auto. destruct (length (ctext init)) as [|m] eqn:L.
  { destruct init as [|i0 init]; [congruence|]. discriminate L. }
  rewrite <- L, firstn_app, firstn_all, Nat.sub_diag. cbn. rewrite app_nil_r. reflexivity.
Qed.
Lemma pop_ctext : forall l : list path, Forall plain l -> length l <> 1%nat -> pop (ctext l) = ctext (removelast l).
Proof.
  intros l H N. destruct l as [|a l]; [reflexivity|]. destruct l as [|b l]; [cbn in N; congruence|].
  assert (X : a :: b :: l <> []) by discriminate. rewrite (app_removelast_last [] X) at 1. apply pop_ctext_last.
  - rewrite (app_removelast_last [] X) in H. apply Forall_app in H. destruct H as [_ H]. inversion H as [|? ? [_ [Y _]] _]; subst. auto.
  - cbn. discriminate.
Qed.
Lemma norm_loop_ok : forall (xs acc : list path), Forall plain acc -> Forall (fun n : path => ~ In 47 n) xs -> dotdot_ok acc xs ->
  norm_loop false xs (ctext acc) = ctext (lexical acc xs) /\ Forall plain (lexical acc xs).
Proof.
  induction xs as [|c xs IH]; intros acc HP HS HD; [split; auto|]. inversion HS as [|? ? S1 S2]; subst.
  cbn [norm_loop lexical dotdot_ok negb andb] in *.
  assert (ED : eqb_list c s_dot = is_dot c). { destruct c as [|x [|y c]]; cbn; rewrite ?andb_true_r, ?andb_false_r; auto. }
  assert (EDD : eqb_list c s_dotdot = is_dotdot c).
  { destruct c as [|x [|y [|z c]]]; cbn; rewrite ?andb_true_r, ?andb_false_r; auto. }
  rewrite ED, EDD. destruct (eqb_list c []) eqn:E0.
  { apply eqb_list_iff in E0. subst. cbn [is_empty orb] in *. apply IH; auto. }
  assert (E0' : is_empty c = false) by (destruct c; [discriminate|reflexivity]). rewrite E0' in *. cbn [orb] in *.
  destruct (is_dot c) eqn:E1; [apply IH; auto|]. destruct (is_dotdot c) eqn:E2.
  - destruct HD as [N HD]. rewrite pop_ctext by auto. apply IH; auto using Forall_removelast.
  - assert (P : plain c). { apply plain_of; auto. rewrite E0', E1. auto. }
    replace (ctext acc ++ [slash] ++ c) with (ctext (acc ++ [c])).
    2:{ rewrite ctext_app. f_equal. unfold ctext. cbn. rewrite app_nil_r. reflexivity. }
    apply IH; auto. apply Forall_app; split; auto.
Qed.
Lemma pieces_noslash_all : forall s, Forall (fun n : path => ~ In 47 n) (pieces s).
Proof. intros. apply Forall_forall. intros n H. eapply pieces_noslash; eauto. Qed.
Lemma normalize_names : forall cwd P, hd 0 P = 47 -> contains [46; 47] P = true -> dotdot_ok [] (pieces P) ->
  names (normalize_unix cwd P) = lexical [] (pieces P).
Proof.
  intros cwd P HA HC HD. unfold normalize_unix. rewrite HC, HA. cbn [negb andb]. unfold slash. rewrite Z.eqb_refl. cbn [negb andb].
  destruct P as [|c P]; [discriminate|]. cbn in HA. subst c. rewrite split_is_pieces. cbn [pieces] in *. rewrite Z.eqb_refl in *.
  cbn [norm_loop eqb_list]. cbn [dotdot_ok lexical is_empty orb] in *.
  destruct (norm_loop_ok (pieces P) [] (Forall_nil _) (pieces_noslash_all P) HD) as [X Y].
  unfold ctext at 1 in X. cbn in X. rewrite X. apply names_ctext. auto.
Qed.
(* a path in which no '.' stands before a slash has no dot pieces but possibly the last *)
Lemma contains_app : forall pat a b, contains pat b = true -> contains pat (a ++ b) = true.
Proof. induction a as [|x a IH]; intros b H; [auto|]. cbn [app contains]. rewrite IH by auto. apply orb_true_r. Qed.
Lemma no_dotslash : forall P, contains [46; 47] P = false ->
  forall pre c post, pieces P = pre ++ c :: post -> post <> [] -> is_dot c = false /\ is_dotdot c = false.
Proof.
  induction P as [|x P IH]; intros HC pre c post HP HN.
  - cbn in HP. destruct pre as [|? [|]]; cbn in HP; try discriminate. injection HP as X Y. exfalso. apply HN. auto.
  - cbn [contains] in HC. apply orb_false_iff in HC. destruct HC as [HC1 HC2]. cbn [pieces] in HP.
    destruct (Z.eqb_spec x 47).
    + destruct pre as [|p0 pre]; cbn in HP.
      * injection HP as <- <-. auto.
      * injection HP as _ HP. eapply IH; eauto.
    + pose proof (pieces_nonnil P). destruct (pieces P) as [|p q] eqn:EP; [congruence|].
      destruct pre as [|p0 pre]; cbn in HP.
      * injection HP as <- <-. destruct (IH HC2 [] p q eq_refl HN) as [A B].
        destruct p as [|p1 p].
        -- (* the piece is [x]; the text goes on with a slash *)
           destruct P as [|y P]; [cbn in EP; injection EP as EQ; exfalso; apply HN; auto|]. cbn [pieces] in EP.
           destruct (Z.eqb_spec y 47); [|destruct (pieces P); discriminate]. subst y. cbn [prefix] in HC1. cbn [is_dot is_dotdot].
           rewrite Z.eqb_refl in HC1. destruct (Z.eqb_spec 46 x); [discriminate|]. split; auto. apply Z.eqb_neq. congruence.
        -- split; [reflexivity|]. cbn [is_dotdot]. destruct p; auto. cbn [is_dot] in A. rewrite A. apply andb_false_r.
      * injection HP as _ HP. apply (IH HC2 (p :: pre) c post); auto. rewrite HP. reflexivity.
Qed.
Lemma lexical_nodots : forall xs acc, (forall c, In c xs -> is_dot c = false /\ is_dotdot c = false) ->
  lexical acc xs = acc ++ filter (fun n => negb (is_empty n)) xs.
Proof.
  induction xs as [|c xs IH]; intros acc H; cbn [lexical filter]; [rewrite app_nil_r; auto|].
  destruct (H c (or_introl eq_refl)) as [-> ->]. rewrite orb_false_r. assert (forall c0, In c0 xs -> is_dot c0 = false /\ is_dotdot c0 = false) by (intros; apply H; right; auto).
  destruct (is_empty c); cbn [negb]; rewrite IH by auto; auto. rewrite <- app_assoc. reflexivity.
Qed.
