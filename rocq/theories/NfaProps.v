(** The theorems about the regular expression engine. *)
From Coq Require Import ZArith List Bool Lia.
From Verif Require Import NfaModel NfaSpec NfaProofs NfaProofs2 NfaProofs3 NfaProofs4.
Import ListNotations.
Open Scope Z_scope.

(** C82. For every pattern without back references, in which no character class is repeated by a count,
    counts are nested at most one repetition deep, and assertions do not stand in repeated or
    alternative parts that can be empty; and for every text: the engine reports a match exactly
    when some piece of the text matches. *)
Theorem finds E p txt :
  (forall c, In c txt -> c <> 0) -> counts p -> shallow p -> class_ok p -> placed p ->
  (regexec E p txt = true <-> found E txt p).
Proof. apply search. Qed.

(** C83. Writing out the counts changes neither the meaning of the tree (for any text and flags), nor lets
    two literals share a state. *)
Theorem counts_keep_meaning E txt p :
  counts p -> class_ok p ->
  let r := fst (expand (fst (number p 0)) {| pos_add := 0; total := 0; depth := 0 |}) in
  forall i j, den E txt r i j <-> matches E txt p i j.
Proof.
  intros C Cl r i j. subst r. pose proof (number_shape p C 0) as Sp. cbn zeta in Sp.
  destruct Sp as (_ & C0 & _ & _ & _ & Cl0 & _). rewrite expand_den by auto. apply number_den. exact C.
Qed.

Theorem states_apart p :
  counts p -> shallow p ->
  let r := fst (expand (fst (number p 0)) {| pos_add := 0; total := 0; depth := 0 |}) in
  apart r /\ nonneg r.
Proof.
  intros C Sh r. subst r. pose proof (number_shape p C 0) as Sp. cbn zeta in Sp.
  pose proof (number_tidy p C 0) as Ti. destruct (number p 0) as [r0 q]. cbn [fst] in *.
  destruct Sp as (_ & _ & _ & _ & _ & _ & _ & _ & Sh0).
  pose proof (expand_shallow r0 (Sh0 Sh) 0 q {| pos_add := 0; total := 0; depth := 0 |} Ti eq_refl eq_refl) as F.
  destruct (expand r0 _) as [r st]. destruct F as (A & W & L & _). cbn [pos_add fst] in *.
  split; [exact A|]. eapply within_nonneg; [exact W|lia].
Qed.

(** ** Examples and counterexamples *)

Definition E0 : env :=
  {| isct := fun c k => (k =? 1) && ((48 <=? c) && (c <=? 57)); upc := fun c => c; lowc := fun c => c;
     alnum := fun c => ((48 <=? c) && (c <=? 57)) || ((97 <=? c) && (c <=? 122));
     notbol := false; noteol := false; newline := false; icase := false |}.

Definition ch (c : Z) : pat := PSet {| i_lo := c; i_hi := c; i_cls := 0; i_neg := [] |} [].
Definition digit : pat := PSet {| i_lo := 0; i_hi := 1114111; i_cls := 1; i_neg := [] |} [].
Definition whole (p : pat) : pat := PCat (PAt Bol) (PCat p (PAt Eol)).

Ltac easy_item := split; [cbn; lia|split; [cbn; intros []; reflexivity|cbn; intros ? []]].

Ltac easy_class := cbn; repeat (split || intro); intuition (subst; auto).

(** ^((ab|c){2,3}x?)+$ : a pattern that meets all the conditions. *)
Definition sample : pat :=
  whole (PRep 1 (-1) (PCat (PRep 2 3 (PAlt (PCat (ch 97) (ch 98)) (ch 99))) (PRep 0 1 (ch 120)))).

Example finds_sample :
  counts sample /\ shallow sample /\ class_ok sample /\ placed sample
  /\ regexec E0 sample [97; 98; 99; 120; 99; 99] = true
  /\ regexec E0 sample [97; 98; 99; 120; 99] = false
  /\ regexec E0 sample [97; 98; 120] = false.
Proof.
  split; [cbn; unfold count_ok; repeat (split; [lia|]); intuition lia|].
  split; [cbn; unfold bounded; intuition lia|].
  split; [easy_class|].
  split; [cbn; intuition lia|].
  vm_compute. auto.
Qed.

(** The digits are forgotten when a count is written out: the pattern ^\d{2}$ accepts "ab". *)
Theorem class_in_count_refuted :
  exists p txt, (forall c, In c txt -> c <> 0) /\ counts p /\ shallow p /\ placed p
    /\ regexec E0 p txt = true /\ ~ found E0 txt p.
Proof.
  exists (whole (PRep 2 2 digit)), [97; 98].
  split; [cbn; intros c H; intuition subst; lia|].
  split; [cbn; unfold count_ok; intuition lia|].
  split; [cbn; tauto|]. split; [cbn; tauto|]. split; [vm_compute; reflexivity|].
  intros (i & j & L & k & [<- H1] & k2 & (n & T & L2) & _). cbn in H1.
  assert (n = 2%nat) by lia. subst n. cbn [times matches digit] in T. destruct T as (m & H & _).
  destruct H as [-> (c & x & C & [<-|[]] & R & A & _)]. cbn in A. specialize (A ltac:(lia)).
  destruct H1 as [[-> _]|[_ Q]]; [|discriminate]. injection C as <-. cbn in A. discriminate.
Qed.

(** Two literals share a state when counts are nested more deeply: ^((a{2})*b){2}$ accepts "abab". *)
Theorem deep_count_refuted :
  exists p txt, (forall c, In c txt -> c <> 0) /\ counts p /\ class_ok p /\ placed p
    /\ regexec E0 p txt = true /\ ~ found E0 txt p.
Proof.
  exists (whole (PRep 2 2 (PCat (PRep 0 (-1) (PRep 2 2 (ch 97))) (ch 98)))), [97; 98; 97; 98].
  split; [cbn; intros c H; intuition subst; lia|].
  split; [cbn; unfold count_ok; intuition lia|].
  split; [easy_class|].
  split; [cbn; intuition lia|]. split; [vm_compute; reflexivity|].
  intros (i & j & L & k & [<- H1] & k2 & (n & T & L2) & _). cbn in H1.
  destruct H1 as [[-> _]|[_ Q]]; [|discriminate].
  assert (n = 2%nat) by lia. subst n. cbn [times] in T. destruct T as (m & H & _).
  cbn [matches] in H. destruct H as (u & (n & T & _) & Hb). destruct n as [|n].
  - cbn in T. subst u. cbn in Hb. destruct Hb as [_ (c & x & C & [<-|[]] & R & _)]. injection C as <-. cbn in R. lia.
  - cbn [times] in T. destruct T as (v & (n2 & T2 & L3) & _). assert (n2 = 2%nat) by lia. subst n2.
    cbn in T2. destruct T2 as (w & [-> (c & x & C & [<-|[]] & R & _)] & w2 & [-> (c2 & x2 & C2 & [<-|[]] & R2 & _)] & _).
    injection C2 as <-. cbn in R2. lia.
Qed.

(** The same without any count around it: ^((a{2})?b)*$ accepts "ab". *)
Theorem deep_optional_refuted :
  exists p txt, (forall c, In c txt -> c <> 0) /\ counts p /\ class_ok p /\ placed p
    /\ regexec E0 p txt = true /\ ~ found E0 txt p.
Proof.
  exists (whole (PRep 0 (-1) (PCat (PRep 0 1 (PRep 2 2 (ch 97))) (ch 98)))), [97; 98].
  split; [cbn; intros c H; intuition subst; lia|].
  split; [cbn; unfold count_ok; intuition lia|].
  split; [easy_class|].
  split; [cbn; intuition lia|]. split; [vm_compute; reflexivity|].
  intros (i & j & L & k & [<- H1] & k2 & (n & T & L2) & <- & He). cbn in H1.
  destruct H1 as [[-> _]|[_ Q]]; [|discriminate].
  destruct n as [|n]; [cbn in T; subst k2; cbn in He; destruct He as [[He _]|[_ He]]; discriminate|].
  cbn [times] in T. destruct T as (m & H & _).
  cbn [matches] in H. destruct H as (u & (n' & T & _) & Hb). destruct n' as [|n'].
  - cbn in T. subst u. cbn in Hb. destruct Hb as [_ (c & x & C & [<-|[]] & R & _)]. injection C as <-. cbn in R. lia.
  - cbn [times] in T. destruct T as (v & (n2 & T2 & L3) & _). assert (n2 = 2%nat) by lia. subst n2.
    cbn in T2. destruct T2 as (w & [-> (c & x & C & [<-|[]] & R & _)] & w2 & [-> (c2 & x2 & C2 & [<-|[]] & R2 & _)] & _).
    injection C2 as <-. cbn in R2. lia.
Qed.

(** A count of zero leaves a hole that makes copies overlap: ^(ab{0}c){2}$ accepts "aac". *)
Theorem zero_count_refuted :
  exists p txt, (forall c, In c txt -> c <> 0) /\ shallow p /\ class_ok p /\ placed p
    /\ regexec E0 p txt = true /\ ~ found E0 txt p.
Proof.
  exists (whole (PRep 2 2 (PCat (ch 97) (PCat (PRep 0 0 (ch 98)) (ch 99))))), [97; 97; 99].
  split; [cbn; intros c H; intuition subst; lia|].
  split; [cbn; unfold bounded; intuition lia|].
  split; [easy_class|].
  split; [cbn; tauto|]. split; [vm_compute; reflexivity|].
  intros (i & j & L & k & [<- H1] & k2 & (n & T & L2) & _). cbn in H1.
  destruct H1 as [[-> _]|[_ Q]]; [|discriminate].
  assert (n = 2%nat) by lia. subst n. cbn [times] in T. destruct T as (m & H & _).
  cbn [matches ch] in H. destruct H as (u & [-> (c & x & C & [<-|[]] & R & _)] & v & (n & T & L3) & [-> (c2 & x2 & C2 & [<-|[]] & R2 & _)]).
  assert (n = O) by lia. subst n. cbn in T. subst v. injection C2 as <-. cbn in R2. lia.
Qed.

(** Of alternatives that can both be empty only the first is tried: x(^|)y does not find "xy". *)
Theorem empty_assertion_refuted :
  exists p txt, (forall c, In c txt -> c <> 0) /\ counts p /\ shallow p /\ class_ok p
    /\ regexec E0 p txt = false /\ found E0 txt p.
Proof.
  exists (PCat (ch 120) (PCat (PAlt (PAt Bol) PEmpty) (ch 121))), [120; 121].
  split; [cbn; intros c H; intuition subst; lia|].
  split; [cbn; tauto|]. split; [cbn; tauto|]. split; [cbn; tauto|]. split; [vm_compute; reflexivity|].
  exists O, 2%nat. split; [cbn; lia|]. exists 1%nat. split.
  - split; [reflexivity|]. exists 120. eexists. split; [reflexivity|]. split; [left; reflexivity|]. easy_item.
  - exists 1%nat. split; [right; reflexivity|].
    split; [reflexivity|]. exists 121. eexists. split; [reflexivity|]. split; [left; reflexivity|]. easy_item.
Qed.

(** An assertion under "?" is required all the same: x(^)?y does not find "xy". *)
Theorem optional_assertion_refuted :
  exists p txt, (forall c, In c txt -> c <> 0) /\ counts p /\ shallow p /\ class_ok p
    /\ regexec E0 p txt = false /\ found E0 txt p.
Proof.
  exists (PCat (ch 120) (PCat (PRep 0 1 (PAt Bol)) (ch 121))), [120; 121].
  split; [cbn; intros c H; intuition subst; lia|].
  split; [cbn; unfold count_ok; intuition lia|]. split; [cbn; tauto|].
  split; [cbn; intuition|]. split; [vm_compute; reflexivity|].
  exists O, 2%nat. split; [cbn; lia|]. exists 1%nat. split.
  - split; [reflexivity|]. exists 120. eexists. split; [reflexivity|]. split; [left; reflexivity|]. easy_item.
  - exists 1%nat. split; [exists O; cbn; intuition lia|].
    split; [reflexivity|]. exists 121. eexists. split; [reflexivity|]. split; [left; reflexivity|]. easy_item.
Qed.
