(** Lemmas about [NmapModel]. *)
From Coq Require Import ZArith List Bool Lia Ascii.
From Verif Require Import CPrelude ListLemmas TagModel TagSpec TagProofs ScanModel ScanProofs ScanProofs2 NmapModel.
Import ListNotations.
Open Scope Z_scope.

(** the curves announced by a header line *)
Definition announced (ns : list Z) : list Z := hd 0 ns :: filter (fun n => 0 <? n) (tl ns).
Lemma announced_len : forall ns, length (announced ns) = S (pos_count (tl ns)).
Proof. reflexivity. Qed.

Lemma fuel_ok : forall l ns, Forall2 field l ns -> (length l <= S (length (join l ++ [nl])))%nat.
Proof.
  intros l ns F. rewrite app_length. cbn [length]. induction F as [|a n l ns Fa F IH]; [simpl; lia|]. destruct l; [simpl; lia|].
  rewrite join_cons, app_length. cbn [length] in *. lia.
Qed.
Lemma nmap_line1_ok : forall f0 f fs n0 ns np, field f0 n0 -> Forall2 field (f :: fs) ns -> Forall (fun n => n < 2 ^ 31) ns ->
  exists np', nmap_line1 (header_line (f0 :: f :: fs)) np = Ok (np', S (pos_count ns)).
Proof.
  intros f0 f fs n0 ns np F0 F B. unfold nmap_line1, header_line. rewrite (head_strchr f0 (f :: fs) n0 F0).
  destruct (entries1_ok (f :: fs) ns F B (S (length (join (f :: fs) ++ [nl]))) np 0) as (np' & ->); [discriminate|apply (fuel_ok _ _ F)|].
  cbn [bind]. exists (Some np'). reflexivity.
Qed.
Lemma nmap_line1_none : forall f0 n0 np, field f0 n0 -> nmap_line1 (header_line [f0]) np = UB.
Proof. intros f0 n0 np F0. unfold nmap_line1, header_line. rewrite (head_strchr f0 [] n0 F0). reflexivity. Qed.

Lemma nmap_entries_ok : forall fs ns, Forall2 field fs ns -> Forall (fun n => n < 2 ^ 31) ns -> forall fuel np, fs <> [] -> (length fs <= fuel)%nat ->
  exists np', nmap_entries fuel (join fs ++ [nl]) np = Ok (np', map Some (filter (fun n => 0 <? n) ns)).
Proof.
  intros fs ns F. induction F as [|f n fs ns Fn F IH]; intros B fuel np NE L; [congruence|].
  destruct fuel; [simpl in L; lia|]. inversion B as [|? ? Bn B']; subst.
  cbn [nmap_entries]. destruct (head_blank f fs n Fn) as (f' & c & r & F' & -> & E & Dc).
  pose proof (head_scan f' fs n F' Bn) as (r' & SC). pose proof (head_strchr f' fs n F') as SR. rewrite E in *.
  destruct (ascii_dec c nl) as [X|]; [exfalso; subst; destruct Dc; unfold code in *; simpl in *; lia|].
  destruct (ascii_dec c CR) as [X|]; [exfalso; subst; destruct Dc; unfold code in *; simpl in *; lia|].
  rewrite SC. cbn [bind]. rewrite SR. clear SR. cbn [filter]. destruct fs as [|g fs].
  - inversion F; subst. exists (Some n). cbn. destruct (0 <? n); reflexivity.
  - destruct (IH B' fuel (Some n)) as (np' & ->); [discriminate|simpl in *; lia|].
    exists np'. cbn [bind]. destruct (0 <? n); reflexivity.
Qed.
Lemma nmap_line2_ok : forall f0 fs n0 ns np, field f0 n0 -> Forall2 field fs ns -> Forall (fun n => n < 2 ^ 31) (n0 :: ns) ->
  exists np', nmap_line2 (header_line (f0 :: fs)) np = Ok (np', map Some (announced (n0 :: ns))).
Proof.
  intros f0 fs n0 ns np F0 F B. inversion B as [|? ? B0 B']; subst. unfold nmap_line2, header_line.
  destruct (head_scan f0 fs n0 F0 B0) as (r & ->). cbn [bind].
  rewrite (head_strchr f0 fs n0 F0). destruct fs as [|f fs].
  - inversion F; subst. exists np. reflexivity.
  - destruct (nmap_entries_ok (f :: fs) ns F B' (S (length (join (f :: fs) ++ [nl]))) np) as (np' & ->); [discriminate|apply (fuel_ok _ _ F)|].
    cbn [bind]. exists np'. reflexivity.
Qed.

Definition has_entry (fs : list (list ascii)) : Prop := (2 <= length fs)%nat.
Lemma nmap_pass1_ok : forall sets nss, Forall2 set_ok sets nss -> Forall has_entry sets ->
  forall body buf np, exists np', nmap_pass1 (length sets) (concat (map header_line sets) ++ body) buf np =
    Ok (np', length (concat (map announced nss))).
Proof.
  intros sets nss F. induction F as [|fs ns sets nss (F0 & B & L & NE) F IH]; intros H body buf np; [simpl; eauto|].
  inversion H as [|? ? H0 H1]; subst. cbn [length nmap_pass1 map concat]. rewrite <- app_assoc.
  destruct (header_fgets fs ns (concat (map header_line sets) ++ body) F0 L) as [E1 E2]. rewrite E1.
  assert (HL : header_line fs <> []) by discriminate. destruct (header_line fs) as [|c0 l0] eqn:EH; [congruence|]. rewrite <- EH in *.
  rewrite E2. destruct ns as [|n0 ns]; [congruence|]. inversion F0 as [|f0 ? fs' ? Ff0 Ffs]; subst.
  destruct fs' as [|f fs']; [unfold has_entry in H0; simpl in H0; lia|]. inversion B as [|? ? B0 B']; subst.
  destruct (nmap_line1_ok f0 f fs' n0 ns np Ff0 Ffs B') as (np1 & ->). cbn [bind].
  destruct (IH H1 body (header_line (f0 :: f :: fs')) np1) as (np2 & ->). cbn [bind]. exists np2.
  rewrite app_length, announced_len. reflexivity.
Qed.
Lemma nmap_pass2_ok : forall sets nss, Forall2 set_ok sets nss -> forall body buf np,
  nmap_pass2 (length sets) (concat (map header_line sets) ++ body) buf np = Ok (body, map Some (concat (map announced nss))).
Proof.
  intros sets nss F. induction F as [|fs ns sets nss (F0 & B & L & NE) F IH]; intros body buf np; [reflexivity|].
  cbn [length nmap_pass2 map concat]. rewrite <- app_assoc.
  destruct (header_fgets fs ns (concat (map header_line sets) ++ body) F0 L) as [E1 E2]. rewrite E1.
  assert (HL : header_line fs <> []) by discriminate. destruct (header_line fs) as [|c0 l0] eqn:EH; [congruence|]. rewrite <- EH in *.
  rewrite E2. destruct ns as [|n0 ns]; [congruence|]. inversion F0 as [|f0 ? fs' ? Ff0 Ffs]; subst.
  destruct (nmap_line2_ok f0 fs' n0 ns np Ff0 Ffs B) as (np1 & ->). cbn [bind].
  rewrite IH. cbn [bind]. rewrite map_app. reflexivity.
Qed.
Lemma nmap_header_ok : forall f0 sets nss body, field f0 (Z.of_nat (length sets)) -> Z.of_nat (length sets) < 2 ^ 31 ->
  (length (header_line [f0]) <= 255)%nat -> Forall2 set_ok sets nss -> Forall has_entry sets ->
  nmap_header (header_line [f0] ++ concat (map header_line sets) ++ body) = Ok (body, map Some (concat (map announced nss))).
Proof.
  intros f0 sets nss body F0 B L F H. unfold nmap_header.
  destruct (header_fgets [f0] [Z.of_nat (length sets)] (concat (map header_line sets) ++ body) (Forall2_cons _ _ F0 (Forall2_nil _)) L) as [E1 E2].
  rewrite E1, E2. unfold header_line at 1. destruct (head_scan f0 [] _ F0 B) as (r & ->). cbn [bind].
  rewrite Nat2Z.id. destruct (nmap_pass1_ok sets nss F H body (header_line [f0]) None) as (np & ->). cbn [bind].
  rewrite nmap_pass2_ok with (nss := nss) by auto. cbn [bind]. rewrite map_length, Nat.leb_refl, Nat.sub_diag. simpl. rewrite app_nil_r. reflexivity.
Qed.
(** a line without entries *)
Lemma nmap_pass1_bare : forall sets nss, Forall2 set_ok sets nss -> ~ Forall has_entry sets ->
  forall body buf np, nmap_pass1 (length sets) (concat (map header_line sets) ++ body) buf np = UB.
Proof.
  intros sets nss F. induction F as [|fs ns sets nss (F0 & B & L & NE) F IH]; intros H body buf np; [exfalso; apply H; constructor|].
  cbn [length nmap_pass1 map concat]. rewrite <- app_assoc.
  destruct (header_fgets fs ns (concat (map header_line sets) ++ body) F0 L) as [E1 E2]. rewrite E1.
  assert (HL : header_line fs <> []) by discriminate. destruct (header_line fs) as [|c0 l0] eqn:EH; [congruence|]. rewrite <- EH in *.
  rewrite E2. destruct ns as [|n0 ns]; [congruence|]. inversion F0 as [|f0 ? fs' ? Ff0 Ffs]; subst. inversion B as [|? ? B0 B']; subst.
  destruct fs' as [|f fs'].
  - rewrite (nmap_line1_none f0 n0 np Ff0). reflexivity.
  - destruct (nmap_line1_ok f0 f fs' n0 ns np Ff0 Ffs B') as (np1 & ->). cbn [bind].
    rewrite IH; [reflexivity|]. intros H1. apply H. constructor; [unfold has_entry; simpl; lia|exact H1].
Qed.
Lemma nmap_header_bare : forall f0 sets nss body, field f0 (Z.of_nat (length sets)) -> Z.of_nat (length sets) < 2 ^ 31 ->
  (length (header_line [f0]) <= 255)%nat -> Forall2 set_ok sets nss -> ~ Forall has_entry sets ->
  nmap_header (header_line [f0] ++ concat (map header_line sets) ++ body) = UB.
Proof.
  intros f0 sets nss body F0 B L F H. unfold nmap_header.
  destruct (header_fgets [f0] [Z.of_nat (length sets)] (concat (map header_line sets) ++ body) (Forall2_cons _ _ F0 (Forall2_nil _)) L) as [E1 E2].
  rewrite E1, E2. unfold header_line at 1. destruct (head_scan f0 [] _ F0 B) as (r & ->). cbn [bind].
  rewrite Nat2Z.id. rewrite (nmap_pass1_bare sets nss F H). reflexivity.
Qed.
