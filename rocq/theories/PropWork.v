(** Property C37: pieces of the work arrays. *)
From Coq Require Import List Arith Bool Lia Psatz.
From Verif Require Import WorkModel.
Import ListNotations.

(** Two pieces share no byte, or are never in use at the same step; all pieces lie
    inside an array of [size] bytes. *)
Definition apart (p q : piece) : Prop :=
  off p + len p <= off q \/ off q + len q <= off p \/ died p < born q \/ died q < born p.
Definition inside (size : nat) (p : piece) : Prop := off p + len p <= size.
Definition safe (size : nat) (l : list piece) : Prop :=
  (forall p, In p l -> inside size p) /\ (forall i j p q, i < j -> nth_error l i = Some p -> nth_error l j = Some q -> apart p q).

Lemma safe_intro : forall size l, Forall (inside size) l -> ForallOrdPairs apart l -> safe size l.
Proof.
  intros size l F P. split; [intros p I; rewrite Forall_forall in F; auto|].
  clear F. induction P as [|a l A P IH]; intros i j p q L Hp Hq; [destruct i; discriminate|].
  destruct j as [|j]; [lia|]. destruct i as [|i]; cbn [nth_error] in *.
  - injection Hp as <-. rewrite Forall_forall in A. apply A. eapply nth_error_In; eauto.
  - apply (IH i j p q); auto. lia.
Qed.

(** Maxima. *)
Lemma fold_max_ge : forall l a, a <= fold_left (fun a n => if a <? n then n else a) l a /\
  forall n, In n l -> n <= fold_left (fun a n => if a <? n then n else a) l a.
Proof.
  induction l as [|x l IH]; intros a; cbn [fold_left]; [split; [lia|intros n []]|].
  destruct (IH (if a <? x then x else a)) as (H1 & H2). split.
  - destruct (Nat.ltb_spec a x); lia.
  - intros n [->|N]; [|auto]. destruct (Nat.ltb_spec a n); lia.
Qed.
Definition covers (m : maxima) (s : shape) : Prop :=
  fst s <= ncon_max m /\ points s <= nall_max m /\ length (snd s) <= nlset_max m /\
  fst s * (1 + length (snd s)) <= nrec0 m /\ (forall n, In n (snd s) -> n * (1 + length (snd s)) <= nrec0 m).
Lemma step_covers : forall m s, covers (max_step m s) s.
Proof.
  intros m [c ls]. unfold covers, max_step. cbn [fst snd ncon_max nline_max nall_max nlset_max nrec0].
  destruct (fold_max_ge ls (nline_max m)) as (_ & H).
  split; [destruct (Nat.ltb_spec (ncon_max m) c); lia|].
  split; [destruct (Nat.ltb_spec (nall_max m) (points (c, ls))); lia|].
  split; [destruct (Nat.ltb_spec (nlset_max m) (length ls)); lia|]. split.
  - apply Nat.le_trans with (Nat.max (if ncon_max m <? c then c else ncon_max m) (fold_left (fun a n => if a <? n then n else a) ls (nline_max m)) * (1 + length ls)); [|lia].
    apply Nat.mul_le_mono_r. destruct (Nat.ltb_spec (ncon_max m) c); lia.
  - intros n N. specialize (H n N).
    apply Nat.le_trans with (Nat.max (if ncon_max m <? c then c else ncon_max m) (fold_left (fun a n => if a <? n then n else a) ls (nline_max m)) * (1 + length ls)); [|lia].
    apply Nat.mul_le_mono_r. lia.
Qed.
Lemma step_mono : forall m s s', covers m s -> covers (max_step m s') s.
Proof.
  intros m s [c ls] (H1 & H2 & H3 & H4 & H5). unfold covers, max_step. cbn [fst snd ncon_max nline_max nall_max nlset_max nrec0].
  split; [destruct (Nat.ltb_spec (ncon_max m) c); lia|].
  split; [destruct (Nat.ltb_spec (nall_max m) (points (c, ls))); lia|].
  split; [destruct (Nat.ltb_spec (nlset_max m) (length ls)); lia|]. split; [lia|].
  intros n N. specialize (H5 n N). lia.
Qed.
Lemma maxima_cover : forall sets s, In s sets -> covers (data_maxima sets) s.
Proof.
  intros sets s. unfold data_maxima. generalize (Maxima 0 0 0 0 0) as m.
  assert (G : forall l m, covers m s -> covers (fold_left max_step l m) s).
  { induction l as [|x l IH]; intros m H; [auto|]. cbn [fold_left]. apply IH. apply step_mono. auto. }
  induction sets as [|x sets IH]; intros m []; cbn [fold_left].
  - subst. apply G. apply step_covers.
  - apply IH. auto.
Qed.

Ltac spread := repeat first [apply Forall_nil | apply Forall_cons | apply FOP_nil | apply FOP_cons];
  unfold inside, apart, dbls, ints; cbn [off len born died].
Ltac fin := match goal with
  | |- _ <= _ => lia
  | |- _ \/ _ \/ ?a < ?b \/ ?c < ?d => first
      [right; right; left; apply Nat.ltb_lt; reflexivity | right; right; right; apply Nat.ltb_lt; reflexivity | left; lia | right; left; lia]
  end.
Ltac pieces := apply safe_intro; spread.
Lemma con_all : forall sets, ncon_max (data_maxima sets) <= nall_max (data_maxima sets).
Proof.
  assert (G : forall l m, ncon_max m <= nall_max m -> ncon_max (fold_left max_step l m) <= nall_max (fold_left max_step l m)).
  { induction l as [|x l IH]; intros m H; [auto|]. cbn [fold_left]. apply IH. unfold max_step. cbn [ncon_max nall_max]. unfold points.
    destruct (Nat.ltb_spec (ncon_max m) (fst x)), (Nat.ltb_spec (nall_max m) (fst x + fold_right Nat.add 0 (snd x))); lia. }
  intros sets. apply G. cbn. lia.
Qed.

Section Bounds.
Variables (sets : list shape) (s : shape) (nq : nat).
Hypothesis HS : In s sets.
Hypothesis HQ : 1 <= nq.
Let m := data_maxima sets.
Let M := nall_max m.
Let R := nrec_max m.
Let ns := ns_of m nq.
Let N := points s.
Let nl := length (snd s).
Let q := nq * (1 + nl).
Lemma NM : N <= M. Proof. clear HQ q ns nq. unfold N, M, m. apply maxima_cover; auto. Qed.
Lemma qns : q <= ns. Proof. unfold q, ns, ns_of, nl. assert (H := maxima_cover sets s HS). destruct H as (_ & _ & H & _). fold m in H. nia. Qed.
Lemma conR : fst s * 3 * (1 + nl) <= R.
Proof. clear HQ q ns nq. unfold R, nrec_max, nl. assert (H := maxima_cover sets s HS). destruct H as (_ & _ & _ & H & _). fold m in H. nia. Qed.
Lemma lineR : forall n, In n (snd s) -> n * 3 * (1 + nl) <= R.
Proof. clear HQ q ns nq. intros n I. unfold R, nrec_max, nl. assert (H := maxima_cover sets s HS). destruct H as (_ & _ & _ & _ & H). fold m in H. specialize (H n I). nia. Qed.
Lemma conN : fst s <= N. Proof. clear HQ HS q ns nq. unfold N, points. lia. Qed.
Lemma q1 : 1 + nl <= q. Proof. unfold q. nia. Qed.
Lemma Nqle : N * q <= M * ns. Proof. apply Nat.mul_le_mono; [apply NM|apply qns]. Qed.
Lemma qqle : q * q <= ns * ns. Proof. apply Nat.mul_le_mono; apply qns. Qed.
Lemma ws_eq : workspace_bytes m nq = (5 * M + 2 * (M * ns) + 2 * (R * ns) + ns + ns * ns) * 8.
Proof. unfold workspace_bytes, workspace_doubles. fold M R ns. ring. Qed.
(** Some curve of the set has a point. *)
Lemma R1 : 1 <= N -> 3 * (1 + nl) <= R.
Proof.
  clear HQ q ns nq. intros H. unfold N, points in H. destruct (Nat.eq_dec (fst s) 0) as [E|E].
  - assert (X : exists n, In n (snd s) /\ 1 <= n).
    { rewrite E in H. clear -H. induction (snd s) as [|x l IH]; cbn [fold_right Nat.add] in H; [lia|].
      destruct x as [|x]; [|exists (S x); split; [left; auto|lia]]. destruct IH as (n & I & L); [cbn [Nat.add]; lia|]. exists n. split; [right|]; auto. }
    destruct X as (n & I & L). assert (Q := lineR n I). nia.
  - assert (Q := conR). nia.
Qed.
Lemma like_safe : 1 <= N -> safe (workspace_bytes m nq) (like_pieces m nq s).
Proof.
  intros HN. assert (X1 := NM). assert (X2 := qns). assert (X3 := Nqle). assert (X4 := qqle). assert (X5 := conN). assert (X6 := R1 HN). assert (X7 := q1).
  assert (X8 : M <= M * ns) by nia. assert (X9 : R <= R * ns) by nia.
  assert (XA : Nat.max (N * q) N <= M * ns) by lia.
  rewrite ws_eq. unfold like_pieces. fold M ns N nl q. fold M in X1.
  clearbody M R ns N q nl. clear HS. set (a := N * q) in *. set (b := M * ns) in *. set (c := q * q) in *. set (d := ns * ns) in *. set (e := R * ns) in *.
  clearbody a b c d e. destruct s as [cn ls]. cbn [fst] in *. clear m. pieces; fin.
Qed.
Lemma vmap_safe : 1 <= N -> safe (workspace_bytes m nq) (like_pieces_vmap m nq s).
Proof.
  intros HN. assert (X1 := NM). assert (X2 := qns). assert (X3 := Nqle). assert (X4 := qqle). assert (X6 := R1 HN). assert (X7 := q1).
  assert (X8 : M <= M * ns) by nia. assert (X9 : R <= R * ns) by nia.
  assert (XA : nq * nl <= q) by (unfold q; nia).
  assert (XB : N * (nq * nl) <= N * q) by nia. assert (XC : (nq * nl) * (nq * nl) <= q * q) by nia.
  rewrite ws_eq. unfold like_pieces_vmap. fold M ns N nl. 
  clearbody M R ns N q nl. clear HS.
  set (a := N * (nq * nl)) in *. set (c := nq * nl * (nq * nl)) in *. set (qq := nq * nl) in *. set (a' := N * q) in *. set (b := M * ns) in *. set (c' := q * q) in *. set (d := ns * ns) in *. set (e := R * ns) in *.
  clearbody a b c d e a' c' qq. clear m. pieces; fin.
Qed.
Lemma con_safe : 1 <= fst s -> safe (workspace_bytes m nq) (con_pieces m nq s).
Proof.
  intros HC.
  assert (CM : ncon_max m <= M) by apply con_all.
  assert (C1 : fst s <= ncon_max m) by (apply maxima_cover; auto).
  assert (Q1 : nq <= ns) by (unfold ns, ns_of; nia).
  assert (X1 : fst s * nq <= ncon_max m * nq) by nia. assert (X2 : ncon_max m * nq <= M * ns) by nia. assert (X3 : nq * nq <= ns * ns) by nia.
  assert (XA : Nat.max (fst s * nq) (fst s) <= ncon_max m * nq) by nia.
  rewrite ws_eq. unfold con_pieces. clearbody M R ns. clear N q HS.
  set (cm := ncon_max m) in *. clearbody cm. set (a := fst s * nq) in *. set (b := cm * nq) in *. set (c := nq * nq) in *. set (b' := M * ns) in *. set (d := ns * ns) in *. set (e := R * ns) in *.
  clearbody a b c d e b'. clear m nl. destruct s as [cn ls]. cbn [fst] in *. pieces; fin.
Qed.
(** Reconstruction; [T] is the number of points to reconstruct. *)
Lemma rec_safe : forall T, 1 <= N -> T <= R -> (1 + nl) * 4 + (fst s + T) * 8 <= (N + R * ns) * 8 -> safe (workspace_bytes m nq) (rec_pieces m nq T s).
Proof.
  intros T HN HT HB. assert (X6 := R1 HN). assert (XS : ns <= R * ns) by nia. assert (X1 := NM). assert (X2 := qns). assert (X3 := Nqle). assert (X4 := qqle). assert (X5 := conN). assert (X7 := q1).
  assert (XT : T * q <= R * ns) by (apply Nat.mul_le_mono; auto). assert (XU : T <= T * q) by nia.
  rewrite ws_eq. unfold rec_pieces. fold N nl q.
  clearbody M R ns N q nl. clear HS. set (a := N * q) in *. set (b := M * ns) in *. set (c := q * q) in *. set (d := ns * ns) in *. set (e := R * ns) in *. set (f := T * q) in *.
  clearbody a b c d e f. clear m. destruct s as [cn ls]. cbn [fst] in *. pieces; fin.
Qed.
Lemma dec_safe : forall q0 T, q0 <= q -> T <= R -> safe (workspace_bytes m nq) (dec_pieces q0 T s).
Proof.
  intros q0 T H0 HT. assert (X1 := NM). assert (X2 := qns). assert (X7 := q1).
  assert (X3 : N * q0 <= M * ns) by nia. assert (X4 : q0 * q0 <= ns * ns) by nia.
  assert (XT : T * q0 <= R * ns) by nia. assert (XU : T <= R * ns) by nia.
  rewrite ws_eq. unfold dec_pieces. fold N.
  clearbody M R ns N q nl. clear HS. set (a := N * q0) in *. set (b := M * ns) in *. set (c := q0 * q0) in *. set (d := ns * ns) in *. set (e := R * ns) in *. set (f := T * q0) in *.
  clearbody a b c d e f. clear m. pieces; fin.
Qed.
Lemma con_rec_safe : 1 <= fst s -> safe (workspace_bytes m nq) (con_rec_pieces nq s).
Proof.
  intros HC. assert (X1 := NM). assert (X5 := conN). assert (XR := conR).
  assert (Q1 : nq <= ns) by (unfold ns, ns_of; nia).
  assert (X3 : fst s * nq <= M * ns) by nia. assert (X4 : nq * nq <= ns * ns) by nia.
  assert (XT : fst s * 3 <= R) by nia. assert (XU : fst s * 3 * nq <= R * ns) by nia. assert (XV : fst s <= fst s * nq) by nia.
  assert (XW : fst s * nq <= R * ns) by nia. assert (XX : nq <= R * ns) by nia. assert (XZ : nq <= fst s * nq) by nia. assert (XY : R <= R * ns) by nia.
  rewrite ws_eq. unfold con_rec_pieces. replace (fst s * 3 * nq) with (3 * (fst s * nq)) in * by ring.
  clearbody M R ns N. clear q HS. set (a := fst s * nq) in *. set (b := M * ns) in *. set (c := nq * nq) in *. set (d := ns * ns) in *. set (e := R * ns) in *.
  clearbody a b c d e. clear m nl XR. destruct s as [cn ls]. cbn [fst] in *. pieces; fin.
Qed.
End Bounds.

(** *** C37.  Likelihoods: every mode, every set that has data. *)
Theorem C37_likelihood : forall sets s nq, In s sets -> 1 <= nq -> 1 <= points s ->
  safe (workspace_bytes (data_maxima sets) nq) (like_pieces (data_maxima sets) nq s).
Proof. intros. apply like_safe; auto. Qed.
Theorem C37_likelihood_vmap : forall sets s nq, In s sets -> 1 <= nq -> 1 <= points s ->
  safe (workspace_bytes (data_maxima sets) nq) (like_pieces_vmap (data_maxima sets) nq s).
Proof. intros. apply vmap_safe; auto. Qed.
Theorem C37_continuum : forall sets s nq, In s sets -> 1 <= nq -> 1 <= fst s ->
  safe (workspace_bytes (data_maxima sets) nq) (con_pieces (data_maxima sets) nq s) /\
  safe (workspace_bytes (data_maxima sets) nq) (con_rec_pieces nq s).
Proof. intros. split; [apply con_safe|apply con_rec_safe]; auto. Qed.
Lemma line_ntall_R : forall sets s nd, In s sets -> line_ntall nd s <= nrec_max (data_maxima sets).
Proof. intros sets s nd H. assert (X := conR sets s H). unfold line_ntall. nia. Qed.
Lemma vmap_ntall_R : forall sets s nd, In s sets -> vmap_ntall nd s <= nrec_max (data_maxima sets).
Proof.
  intros sets s nd H. unfold vmap_ntall.
  assert (G : forall l a, (forall n, In n l -> n * 3 * (1 + length (snd s)) <= nrec_max (data_maxima sets)) -> a * (1 + length (snd s)) <= nrec_max (data_maxima sets) ->
    fold_left (fun a n => Nat.max a (Nat.min (n * 3) nd)) l a * (1 + length (snd s)) <= nrec_max (data_maxima sets)).
  { induction l as [|x l IH]; intros a H1 H2; [auto|]. cbn [fold_left]. apply IH; [intros; apply H1; right; auto|].
    assert (X := H1 x (or_introl eq_refl)). assert (Y : Nat.max a (Nat.min (x * 3) nd) <= a \/ Nat.max a (Nat.min (x * 3) nd) <= x * 3) by lia.
    destruct Y as [Y|Y]; nia. }
  apply G; [|lia]. intros n N. apply lineR; auto.
Qed.
(** Reconstruction, for sets with at least one line, every line having a point; any
    number of points to reconstruct. *)
Lemma lines_points : forall l : list nat, (forall n, In n l -> 1 <= n) -> length l <= fold_right Nat.add 0 l.
Proof. induction l as [|x l IH]; intros H; cbn [length fold_right]; [lia|]. assert (1 <= x) by (apply H; left; auto). assert (length l <= fold_right Nat.add 0 l) by (apply IH; intros; apply H; right; auto). lia. Qed.
Theorem C37_reconstruction : forall sets s nq nd_rec, In s sets -> 1 <= nq -> snd s <> [] -> (forall n, In n (snd s) -> 1 <= n) ->
  safe (workspace_bytes (data_maxima sets) nq) (rec_pieces (data_maxima sets) nq (line_ntall nd_rec s) s).
Proof.
  intros sets s nq nd HS HQ HL HP.
  assert (HN : 1 <= points s).
  { unfold points. destruct (snd s) as [|x l]; [congruence|]. cbn [fold_right]. assert (1 <= x) by (apply HP; left; auto). lia. }
  apply rec_safe; auto; [apply line_ntall_R; auto|].
  assert (X := lines_points _ HP). assert (Y := line_ntall_R sets s nd HS). unfold points.
  set (R := nrec_max (data_maxima sets)) in *. set (T := line_ntall nd s) in *.
  assert (Z : R <= R * ns_of (data_maxima sets) nq) by (unfold ns_of; nia).
  set (Rn := R * ns_of (data_maxima sets) nq) in *. clearbody Rn R T.
  destruct (snd s) as [|x l]; [congruence|]. cbn [length] in *. lia.
Qed.
(** Also without lines, when a trend is fitted. *)
Theorem C37_reconstruction_trend : forall sets s nq nd_rec, In s sets -> 2 <= nq -> 1 <= fst s -> snd s = [] ->
  safe (workspace_bytes (data_maxima sets) nq) (rec_pieces (data_maxima sets) nq (line_ntall nd_rec s) s).
Proof.
  intros sets s nq nd HS HQ HC HL. apply rec_safe; auto; [lia|unfold points; lia|apply line_ntall_R; auto|].
  assert (Y := line_ntall_R sets s nd HS). assert (W := conR sets s HS). rewrite HL in *. cbn [length] in *.
  set (R := nrec_max (data_maxima sets)) in *. set (T := line_ntall nd s) in *.
  assert (Z : R * 2 <= R * ns_of (data_maxima sets) nq) by (apply Nat.mul_le_mono_l; unfold ns_of; nia).
  assert (P : fst s <= points s) by (unfold points; lia).
  set (Rn := R * ns_of (data_maxima sets) nq) in *. clearbody Rn R T. lia.
Qed.
(** Without lines and without trend the int counter piece does not fit: for every
    single set of n >= 1 points, all of which are reconstructed. *)
Theorem C37_no_line_refuted : forall n nd_rec, 1 <= n -> 3 * n <= nd_rec ->
  exists p, In p (rec_pieces (data_maxima [(n, [])]) 1 (line_ntall nd_rec (n, [])) (n, [])) /\
    off p + len p = workspace_bytes (data_maxima [(n, [])]) 1 + 4.
Proof.
  intros n nd H1 H2. eexists. split; [do 11 right; left; reflexivity|].
  unfold ints, off, len, line_ntall, workspace_bytes, workspace_doubles, ns_of, nrec_max, points, data_maxima. cbn [fold_left max_step fst snd length fold_right].
  unfold max_step, points. cbn [ncon_max nline_max nall_max nlset_max nrec0 fst snd length fold_left fold_right].
  destruct (Nat.ltb_spec 0 n); [|lia]. destruct (Nat.ltb_spec 0 (n + 0)); [|lia]. cbn [Nat.ltb Nat.leb]. 
  replace (Nat.min (n * 3) nd) with (3 * n) by lia. replace (Nat.max n 0) with n by lia. replace (Nat.max 0 (n * (1 + 0))) with n by lia. lia.
Qed.
(** Decomposition into components and velocity maps. *)
Theorem C37_decomposition : forall sets s nq nd_rec, In s sets -> 1 <= nq ->
  safe (workspace_bytes (data_maxima sets) nq) (dec_pieces (nq * (1 + length (snd s))) (line_ntall nd_rec s) s) /\
  safe (workspace_bytes (data_maxima sets) nq) (dec_pieces (nq * length (snd s)) (vmap_ntall nd_rec s) s).
Proof.
  intros sets s nq nd HS HQ. split; apply dec_safe; auto; [apply line_ntall_R; auto|nia|apply vmap_ntall_R; auto].
Qed.
(** The partitioned inverse: [ni] points done, [n2] to add, within the points of the set. *)
Theorem C37_inverse : forall sets s ni n2, In s sets -> ni + n2 <= points s ->
  safe (workspace_inv_bytes (data_maxima sets)) (inv_pieces (points s) ni n2).
Proof.
  intros sets s ni n2 HS HB. assert (X := NM sets s HS). unfold workspace_inv_bytes.
  assert (X1 : points s * points s <= nall_max (data_maxima sets) * nall_max (data_maxima sets)) by nia.
  assert (X2 : (ni + n2) * (ni + n2) <= points s * points s) by nia.
  replace ((ni + n2) * (ni + n2)) with (ni * ni + 2 * (ni * n2) + n2 * n2) in X2 by ring. unfold inv_pieces.
  replace ((ni + n2) * (ni + n2)) with (ni * ni + 2 * (ni * n2) + n2 * n2) by ring.
  replace (3 * nall_max (data_maxima sets) * nall_max (data_maxima sets) * 8) with (24 * (nall_max (data_maxima sets) * nall_max (data_maxima sets))) by ring.
  set (a := ni * ni) in *. set (b := ni * n2) in *. set (c := n2 * n2) in *. set (d := points s * points s) in *. set (e := nall_max (data_maxima sets) * nall_max (data_maxima sets)) in *.
  clearbody a b c d e. pieces; fin.
Qed.
(** The other arrays: covariances of the data, of data and reconstruction, of the
    reconstruction; pivots. *)
Theorem C37_matrices : forall sets s nq nd_rec, In s sets -> 1 <= nq <= 3 -> 1 <= points s ->
  let m := data_maxima sets in
  points s * points s <= PCmat_doubles m /\
  line_ntall nd_rec s * points s <= USmat_doubles m /\ vmap_ntall nd_rec s * points s <= USmat_doubles m /\
  line_ntall nd_rec s * line_ntall nd_rec s <= ASmat_doubles m /\ vmap_ntall nd_rec s * vmap_ntall nd_rec s <= ASmat_doubles m /\
  points s <= workspace_ipiv_elems m /\ nq * (1 + length (snd s)) <= workspace_ipiv_elems m.
Proof.
  intros sets s nq nd HS HQ HP m. assert (X1 := NM sets s HS). assert (X2 := line_ntall_R sets s nd HS). assert (X3 := vmap_ntall_R sets s nd HS). fold m in X1, X2, X3.
  assert (X4 := R1 sets s HS HP). fold m in X4. unfold PCmat_doubles, USmat_doubles, ASmat_doubles, workspace_ipiv_elems.
  split; [nia|]. split; [nia|]. split; [nia|]. split; [nia|]. split; [nia|].
  destruct (Nat.ltb_spec (nrec_max m) (nall_max m)); split; nia.
Qed.
(** PEmat1 of reconstruct_line_from_varmodel3 is allocated with ntall*nall_data and
    used again for ntall*nqall (src/mc_line.c:1743, 1837): it fits when every curve
    has as many points as the trend has terms, and does not when there are fewer. *)
Theorem C37_reused_matrix : forall s nq T, nq <= fst s -> (forall n, In n (snd s) -> nq <= n) ->
  T * (nq * (1 + length (snd s))) <= T * points s.
Proof.
  intros [c ls] nq T H1 H2. apply Nat.mul_le_mono_l. unfold points. cbn [fst snd] in *.
  assert (X : nq * length ls <= fold_right Nat.add 0 ls).
  { clear H1. induction ls as [|x l IH]; cbn [length fold_right]; [lia|]. assert (nq <= x) by (apply H2; left; auto).
    assert (nq * length l <= fold_right Nat.add 0 l) by (apply IH; intros; apply H2; right; auto). lia. }
  lia.
Qed.
Theorem C37_reused_matrix_refuted : exists s nq T, 1 <= nq <= 3 /\ T = line_ntall 200 s /\ fst s = 1 /\ snd s = [1] /\
  T * points s < T * (nq * (1 + length (snd s))).
Proof. exists (1, [1]), 2, 6. repeat split; cbn; lia. Qed.
(** Two sets: 30 and 20, 10 points; 5 and 8 points; linear trend. *)
Example C37_case : let sets := [(30, [20; 10]); (5, [8])] in
  data_maxima sets = Maxima 30 20 60 2 90 /\ workspace_doubles (data_maxima sets) 2 = 4302 /\
  safe (workspace_bytes (data_maxima sets) 2) (rec_pieces (data_maxima sets) 2 (line_ntall 200 (5, [8])) (5, [8])).
Proof.
  intros sets. split; [reflexivity|]. split; [reflexivity|]. apply C37_reconstruction; [right; left; reflexivity|lia|discriminate|].
  intros n [<-|[]]. lia.
Qed.
Print Assumptions C37_likelihood. Print Assumptions C37_likelihood_vmap. Print Assumptions C37_continuum.
Print Assumptions C37_reconstruction. Print Assumptions C37_reconstruction_trend. Print Assumptions C37_no_line_refuted.
Print Assumptions C37_decomposition. Print Assumptions C37_inverse. Print Assumptions C37_matrices.
Print Assumptions C37_reused_matrix. Print Assumptions C37_reused_matrix_refuted.
