(** * Safe mode: properties C31 (file access), C32 (path normalisation), C33 (sub-interpreters) *)
From Coq Require Import ZArith List Bool Lia.
From Verif Require Import JsonModel SafeModel SafeSpec SafeProofs.
Import ListNotations.
Local Open Scope Z_scope.

(** The environment of a process with file system [fs] and current directory [cwdc]; realpath(3)
    follows at most [links] symbolic links. *)
Definition os (links : nat) (fs : fsys) (cwdc : list path) (homedir : path) : env :=
  {| cwd := text cwdc; home := homedir; rp := realpath links fs cwdc |}.
(** the directories configured for reading and for writing *)
Definition dirs_for (ip : interp) (a : aflag) : option (list (option path)) :=
  match a with AWRITE => writeDirs ip | _ => readDirs ip end.
Definition data_access (a : aflag) : Prop := a = AREAD \/ a = AWRITE.

(** ** C31 *)

(** Access to an existing file or directory, through any chain of symbolic links and any '.' and '..':
    it is let through only if the object really denoted is a configured directory or lies underneath one,
    and always if it does (for a directory other than the root, written as an absolute path). *)
Theorem existing_access : forall links fs cwdc homedir ip p c a ds,
  isSafe ip = true -> data_access a -> dirs_for ip a = Some ds ->
  Forall plain cwdc -> hd 0 p <> 126 -> resolve links fs cwdc p = Some c ->
  (access (os links fs cwdc homedir) ip p a = true -> exists d, In (Some d) ds /\ absolute d /\ under (names d) c) /\
  ((exists dc, dc <> [] /\ In (Some (text dc)) ds /\ under dc c) -> access (os links fs cwdc homedir) ip p a = true).
Proof.
  intros links fs cwdc homedir ip p c a ds HS HA HD HP HT HR.
  assert (X : file_realpath (os links fs cwdc homedir) p = Some (text c)).
  { unfold file_realpath. destruct p as [|p0 p]; [discriminate|]. cbn in HT.
    assert (p0 =? tilde = false) as -> by (apply Z.eqb_neq; exact HT).
    unfold os at 1. cbn [rp]. unfold realpath. rewrite HR. reflexivity. }
  assert (Y : access (os links fs cwdc homedir) ip p a = existsb (fun od => match od with None => false | Some d => dir_allows (text c) d end) ds).
  { unfold access. rewrite HS, X. destruct HA as [-> | ->]; cbn in HD; cbn [negb]; rewrite HD; reflexivity. }
  rewrite Y. split.
  - intros H. apply existsb_exists in H. destruct H as ([d|] & I & H); [|discriminate].
    apply dir_allows_under in H. destruct H as (N & E & U). rewrite names_text in U by (eapply resolve_plain; eauto).
    exists d. repeat split; auto. destruct (absolute_text c) as [r R]. rewrite R in E. cbn in E.
    destruct d as [|d0 d]; [congruence|]. cbn in E. subst. exists d. auto.
  - intros (dc & N & I & U). apply existsb_exists. exists (Some (text dc)). split; auto. apply dir_allows_complete; auto.
Qed.

(** With no directories configured nothing is let through, whatever the path. *)
Theorem no_dirs_no_access : forall e ip p a, isSafe ip = true -> data_access a -> dirs_for ip a = None -> access e ip p a = false.
Proof. intros e ip p a HS [-> | ->] HD; cbn in HD; unfold access; rewrite HS, HD; reflexivity. Qed.

(** A new file: the path makes the new name [t] without going through a symbolic link.  Excluded (see the
    refutations below): '..' applied when a single name has been collected, and a path beginning with '~'. *)
Definition start (cwdc : list path) (p : path) : list path := if hd 0 p =? 47 then [] else cwdc.

Lemma norm_new : forall cw P t, hd 0 P = 47 -> dotdot_ok [] (pieces P) -> t = lexical [] (pieces P) ->
  (exists pre leaf k, pieces P = pre ++ [leaf] ++ repeat [] k /\ is_dot leaf = false /\ is_dotdot leaf = false) ->
  names (normalize_unix cw P) = t.
Proof.
  intros cw P t HA HD HT (pre & leaf & k & HP & L1 & L2). destruct (contains [46; 47] P) eqn:HC.
  - rewrite normalize_names; auto.
  - unfold normalize_unix. rewrite HC. cbn [negb]. rewrite HT. unfold names. rewrite lexical_nodots; [reflexivity|].
    intros c I. rewrite HP in I. apply in_app_or in I. destruct I as [I|I].
    + apply in_split in I. destruct I as (l1 & l2 & ->). eapply (no_dotslash P HC l1 c (l2 ++ [leaf] ++ repeat [] k)).
      * rewrite HP, <- app_assoc. reflexivity.
      * destruct l2; discriminate.
    + destruct I as [<-|I]; auto. apply repeat_spec in I. subst. split; reflexivity.
Qed.
Lemma pieces_text : forall l, Forall plain l -> exists k, pieces (text l) = repeat [] k ++ [] :: l /\ (l = [] -> k = 1%nat).
Proof.
  intros l H. destruct l as [|n l]; [exists 1%nat; split; auto|]. exists 0%nat. split; [|discriminate].
  change (text (n :: l)) with (ctext (n :: l)). rewrite pieces_ctext; [reflexivity| |discriminate].
  eapply Forall_impl; [|exact H]. intros ? X. apply X.
Qed.
Lemma plain_bits : forall n, plain n -> is_empty n = false /\ is_dot n = false /\ is_dotdot n = false.
Proof.
  intros n (A & B & C & D). repeat split.
  - destruct n; [congruence|reflexivity].
  - destruct n as [|x [|y n]]; auto. cbn. apply Z.eqb_neq. congruence.
  - destruct n as [|x [|y [|z n]]]; auto. cbn. destruct (Z.eqb_spec x 46), (Z.eqb_spec y 46); auto. congruence.
Qed.
Lemma lexical_plain : forall l acc, Forall plain l -> lexical acc l = acc ++ l.
Proof.
  induction l as [|n l IH]; intros acc H; [rewrite app_nil_r; auto|]. inversion H as [|? ? P1 P2]; subst.
  destruct (plain_bits n P1) as (A & B & C). cbn [lexical]. rewrite A, B, C. cbn [orb]. rewrite IH by auto. rewrite <- app_assoc. reflexivity.
Qed.
Lemma dotdot_ok_plain : forall l acc xs, Forall plain l -> dotdot_ok acc (l ++ xs) <-> dotdot_ok (acc ++ l) xs.
Proof.
  induction l as [|n l IH]; intros acc xs H; [rewrite app_nil_r; reflexivity|]. inversion H as [|? ? P1 P2]; subst.
  destruct (plain_bits n P1) as (A & B & C). cbn [app dotdot_ok]. rewrite A, B, C. cbn [orb]. rewrite IH by auto. rewrite <- app_assoc. reflexivity.
Qed.
Lemma dotdot_ok_empties : forall k acc xs, dotdot_ok acc (repeat [] k ++ xs) <-> dotdot_ok acc xs.
Proof. induction k; intros; cbn; auto. reflexivity. Qed.
Lemma hd_pop : forall d, hd 0 (pop d) = hd 0 d.
Proof. intros. unfold pop. destruct (last_slash d) as [[|i]|]; auto. destruct d; reflexivity. Qed.
Lemma hd_norm_loop : forall xs d, d <> [] -> hd 0 (norm_loop false xs d) = hd 0 d.
Proof.
  induction xs as [|c xs IH]; intros d N; [reflexivity|]. cbn [norm_loop negb andb].
  destruct (eqb_list c []); auto. destruct (eqb_list c s_dot); auto. destruct (eqb_list c s_dotdot).
  - rewrite IH; [apply hd_pop|]. unfold pop. destruct (last_slash d) as [[|i]|]; auto. destruct d; [congruence|discriminate].
  - rewrite IH; [destruct d; [congruence|reflexivity]|]. destruct d; [congruence|discriminate].
Qed.

Lemma resolve_abs : forall links fs cw P, hd 0 P = 47 -> resolve links fs cw P = walk links fs [] (pieces P).
Proof. intros links fs cw P H. destruct P as [|c P]; [discriminate|]. cbn in H. subst. reflexivity. Qed.
Lemma hd_text_app : forall l s, hd 0 (text l ++ s) = 47.
Proof. intros. destruct (absolute_text l) as [r R]. rewrite R. reflexivity. Qed.

Theorem new_file_access_partial : forall links follow fs cwdc homedir ip p t a ds,
  isSafe ip = true -> data_access a -> dirs_for ip a = Some ds -> (forall d, In (Some d) ds -> absolute d) ->
  Forall plain cwdc -> cwdc <> [] -> resolve 0 fs [] (text cwdc) = Some cwdc -> dir_atb fs cwdc = true ->
  hd 0 p <> 126 -> dotdot_ok (start cwdc p) (pieces p) ->
  creates follow 0 fs cwdc p = Some t ->
  access (os links fs cwdc homedir) ip p a = true -> exists d, In (Some d) ds /\ under (names d) t.
Proof.
  intros links follow fs cwdc homedir ip p t a ds HS HA HD HABS HP HNR HCW HCD HT HDD HC HACC.
  destruct p as [|p0 p']; [discriminate|]. remember (p0 :: p') as p eqn:EP.
  assert (HNEW : walk_new follow 0 fs (start cwdc p) (pieces p) = Some t) by (subst p; exact HC).
  assert (LEX : t = lexical (start cwdc p) (pieces p)) by (eapply creates0_lexical; eauto).
  assert (HSHAPE : exists pre leaf k, pieces p = pre ++ [leaf] ++ repeat [] k /\ is_dot leaf = false /\ is_dotdot leaf = false).
  { destruct (creates0 _ _ _ _ _ HNEW) as (pre & leaf & k & d & X & _ & A & B & _). exists pre, leaf, k. auto. }
  assert (MISS : rp (os links fs cwdc homedir) p = None).
  { unfold os. cbn [rp]. unfold realpath, resolve. subst p. cbn [start hd] in HNEW. unfold start in HNEW. cbn [hd] in HNEW.
    rewrite (creates0_missing _ links _ _ _ _ HNEW). reflexivity. }
  (* the text that is compared with the directories *)
  assert (KEY : forall s, file_realpath (os links fs cwdc homedir) p = Some s -> hd 0 s = 47 -> names s = t).
  { intros s HF HS0. subst p. cbn [file_realpath] in HF. cbn [hd] in HT.
    assert (E126 : p0 =? tilde = false) by (apply Z.eqb_neq; exact HT). rewrite E126 in HF. rewrite MISS in HF. cbn [negb andb] in HF.
    unfold start in *. cbn [hd] in *. unfold slash in HF. destruct (Z.eqb_spec p0 47) as [E47|E47].
    - (* absolute *)
      assert (ED : p0 =? dot = false) by (subst; reflexivity). rewrite ED in HF. cbn [negb andb orb] in HF.
      injection HF as <-. apply norm_new; auto.
    - cbn [negb andb] in HF.
      destruct (((p0 =? dot) && (hd 0 p' =? 47)) || (negb ((p0 =? dot) && (hd 0 p' =? dot)) && negb (hd 0 p' =? 58))) eqn:EB.
      + (* relative, tried from the current directory *)
        change (cwd (os links fs cwdc homedir)) with (text cwdc) in HF. cbn [app] in HF.
        assert (PP : pieces (text cwdc ++ 47 :: p0 :: p') = [] :: cwdc ++ pieces (p0 :: p')).
        { rewrite pieces_app. change (text cwdc) with (match cwdc with [] => [47] | _ => ctext cwdc end).
          destruct cwdc as [|n l]; [congruence|]. rewrite pieces_ctext; [reflexivity| |discriminate].
          eapply Forall_impl; [|exact HP]. intros ? X. apply X. }
        assert (M2 : rp (os links fs cwdc homedir) (text cwdc ++ 47 :: p0 :: p') = None).
        { unfold os. cbn [rp]. unfold realpath. rewrite resolve_abs by (apply hd_text_app). rewrite PP, walk_eq. cbn [is_empty orb].
          assert (W0 : walk 0 fs [] cwdc = Some cwdc).
          { rewrite resolve_abs in HCW by (rewrite <- (app_nil_r (text cwdc)); apply hd_text_app).
            change (text cwdc) with (match cwdc with [] => [47] | _ => ctext cwdc end) in HCW.
            destruct cwdc as [|n l]; [congruence|]. rewrite pieces_ctext in HCW; [|eapply Forall_impl; [|exact HP]; intros ? X; apply X|discriminate].
            rewrite walk_eq in HCW. exact HCW. }
          rewrite (walk0_app _ _ _ _ _ _ W0 HCD). rewrite (creates0_missing _ links _ _ _ _ HNEW). reflexivity. }
        rewrite M2 in HF. injection HF as <-.
        apply norm_new.
        * destruct (absolute_text cwdc) as [r R]. rewrite R. reflexivity.
        * rewrite PP. cbn [dotdot_ok is_empty orb]. apply dotdot_ok_plain; auto.
        * rewrite PP. cbn [lexical is_empty orb]. rewrite lexical_app, (lexical_plain cwdc []) by auto. exact LEX.
        * destruct HSHAPE as (pre & leaf & k & X & A & B). exists ([] :: cwdc ++ pre), leaf, k. split; auto.
          rewrite PP, X. cbn [app]. rewrite <- app_assoc. reflexivity.
      + (* relative, beginning with .. or with a colon second: stays relative *)
        exfalso. injection HF as HF. subst s. unfold normalize_unix in HS0.
        destruct (contains [46; 47] (p0 :: p')) eqn:C1; cbn [negb] in HS0; [|cbn in HS0; congruence].
        unfold slash in HS0. cbn [hd] in HS0. destruct (Z.eqb_spec p0 47); [congruence|]. cbn [negb andb] in HS0.
        cbn [os cwd] in HS0. assert (EC : eqb_list (text cwdc) [47] = false).
        { destruct (eqb_list _ _) eqn:EE; auto. apply eqb_list_iff in EE. exfalso.
          assert (X : names (text cwdc) = names [47]) by congruence. rewrite names_text in X by auto. cbn in X. congruence. }
        rewrite EC in HS0. cbn [negb] in HS0. rewrite andb_true_r in HS0.
        destruct (contains s_dotdot (p0 :: p')) eqn:C2; [cbn in HS0; congruence|].
        (* then it begins with a name of which a colon is the second character *)
        apply orb_false_iff in EB. destruct EB as [EB1 EB2].
        assert (C58 : hd 0 p' = 58).
        { destruct (Z.eqb_spec (hd 0 p') 58); auto. rewrite andb_true_r in EB2. apply negb_false_iff, andb_true_iff in EB2.
          destruct EB2 as [E1 E2]. apply Z.eqb_eq in E1, E2. destruct p' as [|q p'']; [discriminate|]. cbn in E2. unfold dot in *. subst.
          cbn in C2. discriminate. }
        destruct p' as [|q p'']; [discriminate|]. cbn in C58. subst q. rewrite split_is_pieces in HS0. cbn [pieces] in HS0.
        destruct (Z.eqb_spec p0 47); [congruence|]. change (58 =? 47) with false in HS0. cbn iota in HS0.
        pose proof (pieces_nonnil p'') as PN. destruct (pieces p'') as [|x0 y0] eqn:PE; [congruence|].
        cbn [norm_loop negb andb app] in HS0. change (eqb_list (p0 :: 58 :: x0) []) with false in HS0. cbn iota in HS0.
        assert (ED2 : eqb_list (p0 :: 58 :: x0) s_dotdot = false). { cbn. rewrite andb_false_r. reflexivity. }
        rewrite ED2 in HS0. rewrite hd_norm_loop in HS0 by discriminate. cbn in HS0. congruence. }
  (* the access test *)
  assert (ACC : exists s, file_realpath (os links fs cwdc homedir) p = Some s /\ exists d, In (Some d) ds /\ dir_allows s d = true).
  { unfold access in HACC. rewrite HS in HACC. cbn [negb] in HACC.
    destruct HA as [-> | ->]; cbn in HD; rewrite HD in HACC;
    (destruct (file_realpath _ _) as [s|]; [|discriminate]); apply existsb_exists in HACC; destruct HACC as ([d|] & I & H);
    try discriminate; exists s; split; auto; exists d; auto. }
  destruct ACC as (s & HF & d & I & AL). apply dir_allows_under in AL. destruct AL as (N & E & U).
  destruct (HABS d I) as [r ->]. exists (47 :: r). split; auto. rewrite (KEY s HF) in U; auto.
Qed.

(** ** Concrete file systems for the examples and refutations *)
From Coq Require Import String Ascii.
Definition tx (x : string) : path := map (fun a => Z.of_N (N_of_ascii a)) (list_ascii_of_string x).
Fixpoint fs_of (l : list (path * node)) (p : list path) : option node :=
  match l with
  | [] => None
  | (q, n) :: r => if eqb_list q (text p) then Some n else fs_of r p
  end.
Definition fs1 : fsys := fs_of
  [(tx "/home", NDir); (tx "/home/u", NDir); (tx "/home/u/box", NDir); (tx "/home/u/box/data", NFile);
   (tx "/home/u/box/etc", NLink (tx "/etc")); (tx "/home/u/box/new", NLink (tx "/etc/new")); (tx "/home/u/box/up", NLink (tx "../box"));
   (tx "/a", NDir); (tx "/etc", NDir); (tx "/etc/passwd", NFile)].
Definition cwd1 : list path := [tx "home"; tx "u"].
Definition e1 : env := os 40 fs1 cwd1 (tx "/home/u").
Definition ip0 : interp :=
  {| isSafe := true; startSafe := true; safeMode := SWriteRead; readDirs := Some [Some (tx "/home/u/box"); Some (tx "/a/")];
     writeDirs := Some [Some (tx "/home/u/box"); Some (tx "/a")]; execPattern := None;
     maxDepth := 100; maxArrayList := 1000; maxIncDepth := 5; maxInterpDepth := 3; maxUserObjs := 10; maxOpCnt := 5000; memLeakCnt := 0;
     interpDepth := 0; noLoad := true; noNetwork := true; noStderr := false; noSubInterps := false; subthread := false; lockDown := None |}.
Lemma plain_tx_home : Forall plain cwd1.
Proof. repeat constructor; cbn; try discriminate; intuition discriminate. Qed.

(** existing_access is not vacuous: through a link, a '..' and back into the directory *)
Example existing_meets : resolve 40 fs1 cwd1 (tx "box/up/../box//data") = Some [tx "home"; tx "u"; tx "box"; tx "data"] /\
  access e1 ip0 (tx "box/up/../box//data") AREAD = true.
Proof. vm_compute. auto. Qed.
(** and a link out of the directory is caught *)
Example existing_caught : resolve 40 fs1 cwd1 (tx "box/etc/passwd") = Some [tx "etc"; tx "passwd"] /\
  access e1 ip0 (tx "box/etc/passwd") AREAD = false.
Proof. vm_compute. auto. Qed.
(** new_file_access_partial: its hypotheses are met by a path with '..' *)
Example new_file_meets : exists t, creates true 0 fs1 cwd1 (tx "box/./x/../sub/") = None /\
  creates true 0 fs1 cwd1 (tx "box/../box/sub/") = Some t /\ access e1 ip0 (tx "box/../box/sub/") AWRITE = true /\
  resolve 0 fs1 [] (text cwd1) = Some cwd1 /\ dir_atb fs1 cwd1 = true /\ dotdot_ok (start cwd1 (tx "box/../box/sub/")) (pieces (tx "box/../box/sub/")).
Proof. eexists. vm_compute. repeat split; discriminate. Qed.

(** False of the code (a): '..' after the first name is ignored when the file does not exist yet, so a
    path out of the directory is let through. *)
Theorem dotdot_escape_refuted : exists p t, access e1 ip0 p AWRITE = true /\ access e1 ip0 p ACREATE = true /\
  creates true 40 fs1 cwd1 p = Some t /\ t = [tx "etc"; tx "shadow"].
Proof. exists (tx "/a/../etc/shadow"), [tx "etc"; tx "shadow"]. vm_compute. auto. Qed.
(** (b): a symbolic link to a directory elsewhere is not seen when the last name does not exist yet. *)
Theorem symlink_parent_escape_refuted : exists p t, access e1 ip0 p AWRITE = true /\
  creates true 40 fs1 cwd1 p = Some t /\ t = [tx "etc"; tx "shadow"].
Proof. exists (tx "/home/u/box/etc/shadow"), [tx "etc"; tx "shadow"]. vm_compute. auto. Qed.
(** (c): nor is a symbolic link to a file that does not exist yet, which opening for writing creates. *)
Theorem dangling_symlink_escape_refuted : exists p t, access e1 ip0 p AWRITE = true /\
  creates true 40 fs1 cwd1 p = Some t /\ t = [tx "etc"; tx "new"].
Proof. exists (tx "box/new"), [tx "etc"; tx "new"]. vm_compute. auto. Qed.
(** (d): mkdir("~/x") is checked as a path in the home directory but made in a directory named ~ of the
    current directory. *)
Definition fs2 : fsys := fs_of [(tx "/a", NDir); (tx "/a/~", NDir); (tx "/home", NDir); (tx "/home/u", NDir); (tx "/home/u/box", NDir)].
Theorem tilde_mkdir_refuted : exists p t, access (os 40 fs2 [tx "a"] (tx "/home/u/box")) ip0 p AREAD = true /\
  creates false 40 fs2 [tx "a"] p = Some t /\ t = [tx "a"; tx "~"; tx "x"] /\
  access (os 40 fs2 [tx "a"] (tx "/home/u/box"))
    {| isSafe := true; startSafe := true; safeMode := SWrite; readDirs := None; writeDirs := Some [Some (tx "/home/u/box")]; execPattern := None;
       maxDepth := 1; maxArrayList := 1; maxIncDepth := 1; maxInterpDepth := 1; maxUserObjs := 1; maxOpCnt := 1; memLeakCnt := 0; interpDepth := 0;
       noLoad := true; noNetwork := true; noStderr := false; noSubInterps := false; subthread := false; lockDown := None |} p AWRITE = true.
Proof. exists (tx "~/x"), [tx "a"; tx "~"; tx "x"]. vm_compute. auto. Qed.
(** The root as a configured directory lets nothing through but itself. *)
Theorem root_dir_refuted : dir_allows (text [tx "etc"]) (text []) = false.
Proof. reflexivity. Qed.

(** *** The file commands *)

(** Every effect a file command has in a safe interpreter is on a path that passed the access check for
    it: reading under the read or the write directories, changing and creating under the write
    directories, creating only outside lockdown. *)
Definition permitted (e : env) (ip : interp) (x : effect) : Prop :=
  match x with
  | EInspect p => access e ip p AREAD = true
  | EModify p => access e ip p AWRITE = true
  | ECreate p => access e ip p AWRITE = true /\ access e ip p ACREATE = true
  end.
Lemma safeaccess_true : forall e ip p w c, isSafe ip = true -> safeaccess e ip p w c = true ->
  access e ip p (if w then AWRITE else AREAD) = true /\ (c = true -> access e ip p ACREATE = true).
Proof.
  intros e ip p w c S H. unfold safeaccess in H. rewrite S in H. cbn [andb] in H. apply negb_true_iff, orb_false_iff in H.
  destruct H as [A B]. apply negb_false_iff in A. split; auto. intros ->. cbn in B. apply negb_false_iff in B. auto.
Qed.
Theorem commands_guarded_partial : forall e ip c x, isSafe ip = true -> (forall p, c <> FGlob p) ->
  In x (run_cmd e ip c) -> permitted e ip x.
Proof.
  intros e ip c x S NG H. unfold run_cmd in H. destruct (_ && _); [destruct H|]. destruct (guard e ip c) eqn:G; [|destruct H].
  destruct c; cbn [guard effects] in G, H; try (exfalso; eapply NG; reflexivity);
  try (apply andb_true_iff in G; destruct G as [G1 G2]; apply safeaccess_true in G1; auto; apply safeaccess_true in G2; auto; destruct G1, G2);
  try (apply safeaccess_true in G; auto; destruct G);
  repeat (destruct H as [<-|H]); cbn [permitted]; auto; try destruct H; try (split; auto).
Qed.
Theorem glob_unguarded_refuted : exists p, In (EInspect p) (run_cmd e1 ip0 (FGlob p)) /\ access e1 ip0 p AREAD = false.
Proof. exists (tx "/etc"). vm_compute. auto. Qed.
(** In lockdown nothing is changed or created by any command. *)
Theorem lockdown_read_only : forall e ip c x, isSafe ip = true -> safeMode ip = SLockdown ->
  In x (run_cmd e ip c) -> exists p, x = EInspect p.
Proof.
  intros e ip c x S M H. unfold run_cmd, disabled in H. rewrite S, M in H. cbn [andb] in H.
  destruct c; cbn [lockdown_test andb effects] in H; try (destruct H; fail);
  destruct (guard e ip _) eqn:G; cbn [guard] in G; try (destruct H; fail);
  try (destruct H as [<-|[]]; eexists; reflexivity);
  exfalso; try (apply andb_true_iff in G; destruct G as [_ G]); apply safeaccess_true in G; auto;
  destruct G as [_ G]; specialize (G eq_refl); unfold access in G; rewrite S, M in G; discriminate.
Qed.
Example commands_meet : run_cmd e1 ip0 (FCopy (tx "box/data") (tx "/a/copy")) <> [] /\
  run_cmd e1 ip0 (FCopy (tx "/etc/passwd") (tx "/a/copy")) = [] /\ run_cmd e1 ip0 (FRename (tx "box/data") (tx "/etc/x")) = [].
Proof. vm_compute. repeat split; auto; discriminate. Qed.

(** ** C32 *)

(** The normalisation used for files that do not exist: for an absolute path with a '.' or '..' before
    some slash, and no '..' met when a single name has been collected, the result has exactly the names
    that textual resolution gives, none of them '.' or '..'. *)
Theorem normalize_resolves : forall cw p, absolute p -> contains [46; 47] p = true -> dotdot_ok [] (pieces p) ->
  names (normalize_unix cw p) = lexical [] (pieces p).
Proof. intros cw p [r ->] C D. apply normalize_names; auto. Qed.
Theorem lexical_no_dots : forall p, Forall plain (lexical [] (pieces p)).
Proof.
  intros p. assert (H : forall xs acc, Forall plain acc -> Forall (fun n : path => ~ In 47 n) xs -> Forall plain (lexical acc xs)).
  { induction xs as [|c xs IH]; intros acc HP HS; cbn [lexical]; auto. inversion HS; subst.
    destruct (is_empty c || is_dot c) eqn:E1; auto. destruct (is_dotdot c) eqn:E2; [apply IH; auto using Forall_removelast|].
    apply IH; auto. apply Forall_app; split; auto. constructor; auto. apply plain_of; auto. }
  apply H; auto. apply pieces_noslash_all.
Qed.
Example normalize_meets : normalize_unix (tx "/x") (tx "/usr/lib/.././/share/./doc") = tx "/usr/share/doc" /\
  dotdot_ok [] (pieces (tx "/usr/lib/.././/share/./doc")).
Proof. vm_compute. repeat split; discriminate. Qed.
(** A path without '.' and '..' keeps its names. *)
Theorem normalize_plain : forall cw p, absolute p -> (forall n, In n (names p) -> is_dot n = false /\ is_dotdot n = false) ->
  names (normalize_unix cw p) = names p.
Proof.
  intros cw p HA H. assert (L : lexical [] (pieces p) = names p).
  { rewrite lexical_nodots; [reflexivity|]. intros c Hc. destruct c as [|x c]; [split; reflexivity|].
    apply H. unfold names. apply filter_In. split; [exact Hc | reflexivity]. }
  destruct (contains [46; 47] p) eqn:C.
  - rewrite <- L. apply normalize_resolves; auto.
    assert (G : forall xs acc, (forall n, In n xs -> is_dotdot n = false) -> dotdot_ok acc xs).
    { induction xs as [|x xs IH]; intros acc G; cbn [dotdot_ok]; [exact I|].
      rewrite (G x) by (left; reflexivity). destruct (is_empty x || is_dot x); apply IH; intros n Hn; apply G; right; exact Hn. }
    apply G. intros n Hn. destruct n as [|x c]; [reflexivity|]. apply H. unfold names. apply filter_In. split; [exact Hn|reflexivity].
  - unfold normalize_unix. rewrite C. reflexivity.
Qed.

(** A path without symbolic links denotes the same existing object after normalisation. *)
Theorem normalize_same_object : forall fs cw p c, absolute p -> contains [46; 47] p = true -> dotdot_ok [] (pieces p) ->
  walk 0 fs [] (pieces p) = Some c -> names (normalize_unix cw p) = c.
Proof. intros fs cw p c A C D W. rewrite normalize_resolves by auto. symmetry. eapply walk0_lexical; eauto. Qed.

(** What the code gets wrong *)
Theorem normalize_dotdot_refuted : normalize_unix (tx "/x") (tx "/a/../b") = tx "/a/b" /\ lexical [] (pieces (tx "/a/../b")) = [tx "b"].
Proof. vm_compute. auto. Qed.
Theorem normalize_trailing_dotdot_refuted : normalize_unix (tx "/x") (tx "/a/b/..") = tx "/a/b/..".
Proof. reflexivity. Qed.
Theorem normalize_relative_refuted : normalize_unix (tx "/x") (tx "a/b/../c") = tx "a/b/../c".
Proof. reflexivity. Qed.

(** File.normalize *)
Lemma skip_slashes_spec : forall s t u, skip_slashes s = (t, u) -> names s = names t /\ hd 0 t <> 47 /\ (List.length t <= List.length s)%nat /\
  (s <> [] -> hd 0 s = 47 -> (List.length t < List.length s)%nat).
Proof.
  induction s as [|c s IH]; cbn [skip_slashes]; intros t u H; [injection H as <- <-; repeat split; auto; cbn; try lia; congruence|].
  unfold slash in H. destruct (Z.eqb_spec c 47).
  - destruct (skip_slashes s) as [t' u']. injection H as <- <-. destruct (IH _ _ eq_refl) as (A & B & C & D). subst c.
    repeat split; auto; cbn [List.length]; lia.
  - injection H as <- <-. cbn. repeat split; auto; congruence.
Qed.
Lemma upto_slash_spec : forall t a b, upto_slash t = (a, b) -> t = a ++ b /\ ~ In 47 a /\ (b = [] \/ hd 0 b = 47).
Proof.
  induction t as [|c t IH]; cbn [upto_slash]; intros a b H; [injection H as <- <-; auto|].
  unfold slash in H. destruct (Z.eqb_spec c 47).
  - injection H as <- <-. cbn. repeat split; auto.
  - destruct (upto_slash t) as [a' b']. injection H as <- <-. destruct (IH _ _ eq_refl) as (-> & B & C). repeat split; auto.
    intros [X|X]; auto.
Qed.
Lemma names_upto : forall a b, ~ In 47 a -> (b = [] \/ hd 0 b = 47) -> names (a ++ b) = filter (fun n => negb (is_empty n)) [a] ++ names b.
Proof.
  intros a b H [-> | E].
  - rewrite app_nil_r. unfold names. rewrite pieces_single by auto. cbn. destruct a; reflexivity.
  - destruct b as [|c b]; [discriminate|]. cbn in E. subst c. rewrite names_app. unfold names at 1. rewrite pieces_single by auto. reflexivity.
Qed.
Lemma np_scan_spec : forall fuel s l u, (List.length s < fuel)%nat -> np_scan fuel s = (l, u) ->
  filter (fun n => negb (is_empty n)) l = names s /\ Forall (fun n : path => ~ In 47 n) l /\
  (u = false -> forall x y, names s = x ++ [46] :: y -> y = []).
Proof.
  induction fuel as [|fuel IH]; intros s l u HL H; [lia|]. destruct s as [|c s].
  { cbn in H. injection H as <- <-. repeat split; auto. intros _ x y X. destruct x; discriminate. }
  cbn [np_scan] in H. destruct (skip_slashes (c :: s)) as [t u0] eqn:SK. destruct (upto_slash t) as [a rest] eqn:UP.
  destruct (np_scan fuel rest) as [l' v] eqn:NS. injection H as <- <-.
  destruct (skip_slashes_spec _ _ _ SK) as (A & B & C & D). destruct (upto_slash_spec _ _ _ UP) as (E & F & G).
  assert (LR : (List.length rest < fuel)%nat).
  { destruct a as [|a0 a].
    - destruct G as [->|G]; [cbn in *; lia|]. cbn in E. subst t. congruence.
    - subst t. rewrite app_length in C. cbn in C, HL. lia. }
  destruct (IH _ _ _ LR NS) as (I1 & I2 & I3). rewrite A, E, names_upto by auto. repeat split; auto.
  - cbn [filter]. destruct (negb (is_empty a)); cbn [app]; rewrite I1; auto.
  - intros HU x y X. apply orb_false_iff in HU. destruct HU as [HU HV]. apply orb_false_iff in HU. destruct HU as [HU0 HU1].
    destruct x as [|x0 x].
    + cbn [filter] in X. destruct a as [|a0 a]; cbn [is_empty negb app] in X; [apply (I3 HV [] y); auto|].
      injection X as X1 X2 X3. subst a0 a. destruct G as [->|G]; [symmetry; exact X3|].
      destruct rest as [|r0 rest]; [discriminate|]. cbn in G. subst r0. subst t. cbn in HU1. discriminate.
    + cbn [filter] in X. destruct a as [|a0 a]; cbn [is_empty negb app] in X; [apply (I3 HV (x0 :: x) y); auto|].
      injection X as _ X. apply (I3 HV x y); auto.
Qed.
Lemma names_concat : forall l : list path, Forall (fun n : path => ~ In 47 n) l ->
  names (List.concat (map (fun c => if eqb_list c [] then [] else slash :: c) l)) = filter (fun n => negb (is_empty n)) l.
Proof.
  intros l H. assert (X : List.concat (map (fun c => if eqb_list c [] then [] else slash :: c) l) = ctext (filter (fun n => negb (is_empty n)) l)).
  { induction l as [|n l IH]; [reflexivity|]. inversion H; subst. cbn [map List.concat filter]. rewrite IH by auto.
    destruct n; cbn; [reflexivity|]. reflexivity. }
  rewrite X. set (m := filter _ l). assert (M : forall n, In n m -> n <> [] /\ ~ In 47 n).
  { intros n I. unfold m in I. apply filter_In in I. destruct I as [I J]. rewrite Forall_forall in H. split; auto. intros ->. discriminate. }
  clearbody m. destruct m as [|n m]; [reflexivity|]. unfold names. rewrite pieces_ctext; [|apply Forall_forall; intros; apply M; auto|discriminate].
  change (filter (fun n0 => negb (is_empty n0)) (n :: m) = n :: m). apply filter_all. intros x I. destruct (M x I) as [Y _]. destruct x; [congruence|reflexivity].
Qed.
Lemma np_scan_first : forall fuel c s l u, np_scan (S fuel) (c :: s) = (l, u) -> l <> [].
Proof. intros fuel c s l u H. cbn [np_scan] in H. destruct (skip_slashes _). destruct (upto_slash _). destruct (np_scan _ _). injection H as <- <-. discriminate. Qed.
(** For an absolute path without '..' whose first and last names are not '.', File.normalize gives the
    names of the textual resolution. *)
Theorem file_normalize : forall e p s, absolute p -> normal_path e p = Some s ->
  (forall n, In n (names p) -> is_dotdot n = false) -> hd [] (names p) <> [46] -> last (names p) [] <> [46] ->
  names s = lexical [] (pieces p).
Proof.
  intros e p s [r ->] H ND NF NL. unfold normal_path in H. cbn [np_start] in H. unfold slash in H. rewrite Z.eqb_refl in H.
  destruct (np_scan (S (List.length (47 :: r))) (47 :: r)) as [l u] eqn:NS. injection H as <-.
  destruct (np_scan_spec _ _ _ _ (Nat.lt_succ_diag_r _) NS) as (A & B & C).
  assert (LX : lexical [] (pieces (47 :: r)) = filter (fun n => negb (is_dot n)) (names (47 :: r))).
  { assert (G : forall xs acc, (forall n, In n xs -> is_dotdot n = false) ->
      lexical acc xs = acc ++ filter (fun n => negb (is_dot n)) (filter (fun n => negb (is_empty n)) xs)).
    { induction xs as [|c xs IH]; intros acc HX; cbn [lexical filter]; [rewrite app_nil_r; auto|].
      rewrite (HX c (or_introl eq_refl)). assert (HX' : forall n, In n xs -> is_dotdot n = false) by (intros; apply HX; right; auto).
      destruct (is_empty c) eqn:E0; cbn [negb orb filter]; [apply IH; auto|]. destruct (is_dot c); cbn [negb]; rewrite IH by auto; auto.
      rewrite <- app_assoc. reflexivity. }
    rewrite G; [reflexivity|]. intros n I. destruct (is_empty n) eqn:E0; [destruct n; [reflexivity|discriminate]|].
    apply ND. unfold names. apply filter_In. rewrite E0. auto. }
  rewrite LX. destruct u.
  - rewrite names_concat.
    2:{ destruct l as [|a l]; [constructor|]. inversion B; subst. constructor; auto. apply Forall_forall. intros x I. apply filter_In in I.
        rewrite Forall_forall in H2. apply H2. apply I. }
    rewrite <- A. pose proof (np_scan_first _ _ _ _ _ NS) as N0. destruct l as [|a l]; [congruence|]. cbn [np_keep].
    rewrite <- A in NF. clear -NF.
    assert (FF : forall m : list path, filter (fun n => negb (is_empty n)) (filter (fun c => negb (eqb_list c s_dot)) m) =
                 filter (fun n => negb (is_dot n)) (filter (fun n => negb (is_empty n)) m)).
    { induction m as [|c m IH]; [reflexivity|]. cbn [filter].
      assert (ED : eqb_list c s_dot = is_dot c). { destruct c as [|x [|y c]]; cbn; rewrite ?andb_true_r, ?andb_false_r; auto. }
      rewrite ED. destruct (is_dot c) eqn:E1, (is_empty c) eqn:E2; cbn [negb filter]; rewrite ?E1, ?E2; cbn [negb]; rewrite ?IH; auto. }
    cbn [filter] in *. rewrite FF. destruct (is_empty a) eqn:E0; cbn [negb] in *; [reflexivity|]. cbn [filter hd] in *.
    destruct (is_dot a) eqn:E1; [|reflexivity]. exfalso. apply NF. destruct a as [|x [|y a]]; try discriminate. cbn in E1. apply Z.eqb_eq in E1. congruence.
  - symmetry. apply filter_all. intros n I. destruct (is_dot n) eqn:E1; auto. exfalso.
    assert (n = [46]). { destruct n as [|x [|y n]]; try discriminate. cbn in E1. apply Z.eqb_eq in E1. congruence. }
    subst n. apply in_split in I. destruct I as (x & y & I). assert (y = []) by (eapply C; eauto). subst y. rewrite I in NL.
    rewrite last_last in NL. congruence.
Qed.
Example file_normalize_meets : normal_path e1 (tx "/usr//lib/./x.y") = Some (tx "/usr/lib/x.y").
Proof. reflexivity. Qed.
Theorem file_normalize_dotdot_refuted : normal_path e1 (tx "/usr/lib/../share") = Some (tx "/usr/lib/../share").
Proof. reflexivity. Qed.

(** ** C33 *)

(** [conf c' c]: the interpreter [c] is at least as confined as a sub-interpreter of the safe
    interpreter [p] must be. *)
Definition confined_by (p c : interp) : Prop :=
  isSafe c = true /\ safeMode c = safeMode p /\ readDirs c = None /\ writeDirs c = None /\ execPattern c = None /\
  (maxDepth c = maxDepth p /\ maxArrayList c = maxArrayList p /\ maxIncDepth c = maxIncDepth p /\
   maxInterpDepth c = maxInterpDepth p /\ maxUserObjs c = maxUserObjs p /\ maxOpCnt c = maxOpCnt p /\ memLeakCnt c = memLeakCnt p) /\
  interpDepth p < interpDepth c <= maxInterpDepth p /\
  (noLoad p = true -> noLoad c = true) /\ (noNetwork p = true -> noNetwork c = true) /\
  (noStderr p = true -> noStderr c = true) /\ (noSubInterps p = true -> noSubInterps c = true) /\ subthread c = false.

(** Everything that can become of interpreters made, directly or indirectly, by the interpreter [p]:
    creation with any options but lockDown, and reconfiguration with any options. *)
Inductive made_by (e : env) (lock_ok : path -> bool) (p : interp) : interp -> Prop :=
| made_new : forall o c, o_lockDown o = None -> interp_new e lock_ok p o = Some c -> made_by e lock_ok p c
| made_sub : forall q o c, made_by e lock_ok p q -> o_lockDown o = None -> interp_new e lock_ok q o = Some c -> made_by e lock_ok p c
| made_conf : forall c o c', made_by e lock_ok p c -> options_conf o c = Some c' -> made_by e lock_ok p c'.

Lemma new_confined : forall e lock_ok p o c, isSafe p = true -> o_lockDown o = None -> interp_new e lock_ok p o = Some c ->
  confined_by p c /\ (lockDown c = None) /\ noSubInterps p = false.
Proof.
  intros e lock_ok p o c S L H. unfold interp_new in H. destruct (noSubInterps p) eqn:NS; [discriminate|].
  destruct (Z.ltb_spec (maxInterpDepth p) (interpDepth p + 1)); [discriminate|].
  destruct (subthread (options_process o (fresh p)) && (isSafe (options_process o (fresh p)) || isSafe p)) eqn:T; [discriminate|].
  rewrite S in *. rewrite orb_true_r, andb_true_r in T.
  assert (LK : lockDown (start_safe (inherit p (options_process o (fresh p)))) = None).
  { unfold start_safe. cbn [safeMode inherit lockDown options_process fresh]. destruct (safeMode p); cbn [lockDown inherit options_process fresh]; rewrite L; reflexivity. }
  unfold lock_down in H. rewrite LK in H. injection H as <-. rewrite LK. split; [|auto].
  unfold confined_by, start_safe. cbn [safeMode inherit].
  assert (D : interpDepth (options_process o (fresh p)) = interpDepth p + 1) by reflexivity.
  destruct (safeMode p) eqn:M; cbn [isSafe safeMode readDirs writeDirs execPattern maxDepth maxArrayList maxIncDepth maxInterpDepth maxUserObjs
     maxOpCnt memLeakCnt interpDepth noLoad noNetwork noStderr noSubInterps subthread inherit]; rewrite ?D, ?T, ?NS, ?M;
  (repeat split; auto; try lia); intros ->; reflexivity.
Qed.
Lemma conf_confined : forall p c o c', confined_by p c -> options_conf o c = Some c' -> confined_by p c'.
Proof.
  intros p c o c' (S & C) H. unfold options_conf in H. rewrite S in H. cbn [andb] in H.
  match type of H with (if ?b then _ else _) = _ => destruct b eqn:G1 end; [discriminate|].
  match type of H with (if ?b then _ else _) = _ => destruct b eqn:G2 end; [discriminate|].
  injection H as <-. repeat match goal with X : _ || _ = false |- _ => apply orb_false_iff in X; destruct X end.
  unfold confined_by, options_process. cbn. destruct o; cbn in *.
  repeat match goal with X : given ?y = false |- _ => destruct y; [discriminate X|]; clear X end. cbn [opt opt2]. tauto.
Qed.
(** For every chain of sub-interpreter creations and reconfigurations starting at a safe interpreter. *)
Theorem safe_chain : forall e lock_ok p c, isSafe p = true -> made_by e lock_ok p c -> confined_by p c.
Proof.
  intros e lock_ok p c S H. induction H as [o c L H|q o c Q IH L H|c o c' Q IH H].
  - eapply new_confined; eauto.
  - destruct IH as (S1 & M1 & D1 & D2 & D3 & (L1 & L2 & L3 & L4 & L5 & L6 & L7) & I1 & F1 & F2 & F3 & F4 & T1).
    destruct (new_confined _ _ _ _ _ S1 L H) as ((S2 & M2 & E1 & E2 & E3 & (K1 & K2 & K3 & K4 & K5 & K6 & K7) & I2 & G1 & G2 & G3 & G4 & T2) & _ & NSq).
    unfold confined_by. repeat split; try congruence; try lia; auto.
  - eapply conf_confined; eauto.
Qed.
(** So no file access at all is granted in any of them. *)
Corollary safe_chain_no_files : forall e lock_ok p c f a, isSafe p = true -> made_by e lock_ok p c -> data_access a -> access e c f a = false.
Proof.
  intros e lock_ok p c f a S H A. destruct (safe_chain _ _ _ _ S H) as (S1 & _ & R & W & _).
  apply no_dirs_no_access; auto. destruct A as [-> | ->]; auto.
Qed.

Definition o0 : iopts := {| o_isSafe := Some false; o_safeMode := Some SNone; o_readDirs := Some [Some (tx "/etc")]; o_writeDirs := None; o_execPattern := None;
  o_maxDepth := Some 1000000; o_maxArrayList := None; o_maxIncDepth := None; o_maxInterpDepth := Some 1000; o_maxUserObjs := None; o_maxOpCnt := Some 0;
  o_memLeakCnt := None; o_noLoad := Some false; o_noNetwork := Some false; o_noStderr := None; o_noSubInterps := None; o_subthread := None; o_lockDown := None |}.
Example chain_meets : exists c g, interp_new e1 (fun _ => true) ip0 o0 = Some c /\ interp_new e1 (fun _ => true) c o0 = Some g /\
  made_by e1 (fun _ => true) ip0 g.
Proof.
  let t := eval vm_compute in (interp_new e1 (fun _ => true) ip0 o0) in
  match t with Some ?c => exists c; assert (A : interp_new e1 (fun _ => true) ip0 o0 = Some c) by (vm_compute; reflexivity);
    let t := eval vm_compute in (interp_new e1 (fun _ => true) c o0) in
    match t with Some ?g => exists g; assert (B : interp_new e1 (fun _ => true) c o0 = Some g) by (vm_compute; reflexivity) end
  end.
  split; [exact A|]. split; [exact B|]. eapply made_sub; [eapply made_new; [|exact A]| |exact B]; reflexivity.
Qed.
(** False of the code: the lockDown option gives a sub-interpreter of a safe interpreter access to any
    directory its script names. *)
Definition o_lock : iopts := {| o_isSafe := None; o_safeMode := None; o_readDirs := None; o_writeDirs := None; o_execPattern := None;
  o_maxDepth := None; o_maxArrayList := None; o_maxIncDepth := None; o_maxInterpDepth := None; o_maxUserObjs := None; o_maxOpCnt := None;
  o_memLeakCnt := None; o_noLoad := None; o_noNetwork := None; o_noStderr := None; o_noSubInterps := None; o_subthread := None; o_lockDown := Some (tx "/etc") |}.
Theorem lockdown_widens_refuted : exists c, interp_new e1 (fun _ => true) ip0 o_lock = Some c /\
  access e1 c (tx "/etc/passwd") AREAD = true /\ access e1 ip0 (tx "/etc/passwd") AREAD = false.
Proof. eexists. split; [reflexivity|]. vm_compute. auto. Qed.
(** And so does running a first script with Interp.source in it: the directory of the script, whatever
    it is, and the current directory become readable. *)
Theorem source_widens_refuted : exists c, interp_new e1 (fun _ => true) ip0 o0 = Some c /\
  access e1 (eval_file_dirs e1 (tx "/etc/passwd") c) (tx "/etc/passwd") AREAD = true /\ access e1 ip0 (tx "/etc/passwd") AREAD = false.
Proof. eexists. split; [reflexivity|]. vm_compute. auto. Qed.

Print Assumptions existing_access.
Print Assumptions no_dirs_no_access.
Print Assumptions new_file_access_partial.
Print Assumptions dotdot_escape_refuted.
Print Assumptions symlink_parent_escape_refuted.
Print Assumptions dangling_symlink_escape_refuted.
Print Assumptions tilde_mkdir_refuted.
Print Assumptions commands_guarded_partial.
Print Assumptions lockdown_read_only.
Print Assumptions normalize_resolves.
Print Assumptions normalize_same_object.
Print Assumptions file_normalize.
Print Assumptions safe_chain.
Print Assumptions safe_chain_no_files.
Print Assumptions lockdown_widens_refuted.
Print Assumptions source_widens_refuted.
