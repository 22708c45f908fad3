(** Best linear unbiased prediction, and non-negativity of the damped random walk
    covariance at arbitrary times. *)
From Coq Require Import Reals List Arith Lia Lra Psatz Permutation Sorted.
From Verif Require Import SemisepModel SemisepProofs MatBridge MatBridge2 SemisepProofs3 PartModel PartProofs PartProofs2 GlsAlgebra LikeModel LikeProofs PredModel.
Import ListNotations.
Open Scope R_scope.

Lemma dot_scal_r : forall n c x y, dot n x (fun i => c * y i) = c * dot n x y.
Proof. intros. unfold dot. rewrite <- sumn_scal. apply sumn_ext. intros; ring. Qed.
Lemma mv_sub : forall m A x y i, mv m A (fun j => x j - y j) i = mv m A x i - mv m A y i.
Proof. intros. unfold mv. rewrite (sumn_ext m _ (fun j => A i j * x j + -1 * (A i j * y j))) by (intros; ring). rewrite sumn_plus, sumn_scal. ring. Qed.
Lemma dot_sub_l : forall n x y z, dot n (fun i => x i - y i) z = dot n x z - dot n y z.
Proof. intros. unfold dot. rewrite (sumn_ext n _ (fun i => x i * z i + -1 * (y i * z i))) by (intros; ring). rewrite sumn_plus, sumn_scal. ring. Qed.
Lemma sym_dot : forall n A x y, symm n A -> dot n (mv n A x) y = dot n x (mv n A y).
Proof. intros n A x y S. rewrite dot_tr. apply dot_ext; auto. intros i I. apply mv_ext; auto. intros j J. unfold tr. apply S; auto. Qed.

Section Blup.
  Variables (n m : nat) (SS Si L Gi : nat -> nat -> R) (u l y : nat -> R) (A : R).
  Hypothesis PD : spd n SS.
  Hypothesis HI : inv_of n SS Si.
  Hypothesis GS : symm m Gi.
  Hypothesis HG : inv_of m (gram n Si L) Gi.

  Definition dd (j : nat) : R := l j - mv n (tr L) (mv n Si u) j.
  Definition hh : nat -> R := mv m Gi dd.
  Definition ww (i : nat) : R := mv n Si u i + mv n Si (mv m L hh) i.
  Definition mse (w : nat -> R) : R := A - 2 * dot n w u + quad n SS w.

  Lemma Ssym : symm n Si.
  Proof. exact (proj1 (spd_inv n SS Si PD HI)). Qed.
  Lemma ww_unbiased : forall j, (j < m)%nat -> mv n (tr L) ww j = l j.
  Proof.
    intros j J. unfold ww. rewrite mv_add. rewrite <- (mv_gram n m Si L). unfold hh. rewrite (mv_id m (gram n Si L) Gi) by auto.
    unfold dd. ring.
  Qed.
  Lemma ww_pred : let q := mv m Gi (mv n (tr L) (mv n Si y)) in
    dot n ww y = dot n u (mv n Si (resid m L y q)) + dot m l q.
  Proof.
    intros q. unfold ww. rewrite dot_add_l. rewrite (sym_dot n Si u y Ssym), (sym_dot n Si (mv m L hh) y Ssym).
    rewrite (dot_comm n (mv m L hh)), (dot_tr n m _ L hh), (dot_comm m _ hh). unfold hh. rewrite (sym_dot m Gi dd _ GS). fold q.
    assert (E : dot m dd q = dot m l q - dot n u (mv n Si (mv m L q))).
    { unfold dd. rewrite dot_sub_l. f_equal. rewrite <- (sym_dot n Si u (mv m L q) Ssym), dot_tr. reflexivity. }
    rewrite E.
    assert (F : dot n u (mv n Si (resid m L y q)) = dot n u (mv n Si y) - dot n u (mv n Si (mv m L q))).
    { rewrite (dot_ext n u (mv n Si (resid m L y q)) u (fun i => mv n Si y i + -1 * mv n Si (mv m L q) i)); auto.
      - rewrite dot_add_r, dot_scal_r. ring.
      - intros i I. rewrite <- mv_scal, <- mv_add. reflexivity. }
    rewrite F. ring.
  Qed.
  Lemma SS_ww : forall i, (i < n)%nat -> mv n SS ww i = u i + mv m L hh i.
  Proof. intros i I. unfold ww. rewrite mv_add. rewrite !(mv_id n SS Si) by auto. reflexivity. Qed.
  Lemma ww_L : forall h, dot n ww (mv m L h) = dot m l h.
  Proof. intros h. rewrite dot_tr. apply dot_ext; auto. intros j J. apply ww_unbiased. auto. Qed.
  Lemma mse_ww : mse ww = A - dot n u (mv n Si u) + dot m dd (mv m Gi dd).
  Proof.
    unfold mse. rewrite quad_dot. rewrite (dot_ext n ww (mv n SS ww) ww (fun i => u i + mv m L hh i)) by (auto; apply SS_ww).
    rewrite dot_add_r, ww_L.
    assert (E : dot n ww u = dot n u (mv n Si u) + dot m (mv n (tr L) (mv n Si u)) hh).
    { unfold ww. rewrite dot_add_l. rewrite (dot_comm n (mv n Si u) u). f_equal.
      rewrite (sym_dot n Si (mv m L hh) u Ssym), dot_comm, (dot_tr n m _ L hh). reflexivity. }
    rewrite E. fold hh. unfold dd at 1. rewrite dot_sub_l. ring.
  Qed.
  Lemma mse_shift : forall w', (forall j, (j < m)%nat -> mv n (tr L) w' j = l j) ->
    mse w' = mse ww + quad n SS (fun i => w' i - ww i).
  Proof.
    intros w' U. set (e := fun i => w' i - ww i).
    assert (E : forall i, w' i = ww i + e i) by (intros; unfold e; ring).
    assert (Z : forall h, dot n e (mv m L h) = 0).
    { intros h. unfold e. rewrite dot_sub_l, ww_L. rewrite dot_tr. rewrite (dot_ext m (mv n (tr L) w') h l h); auto. ring. }
    unfold mse. rewrite !quad_dot.
    rewrite (dot_ext n w' (mv n SS w') (fun i => ww i + e i) (fun i => mv n SS ww i + mv n SS e i)); auto.
    2: { intros i I. rewrite <- mv_add. apply mv_ext; auto. }
    rewrite dot_add_l, !dot_add_r. rewrite <- (sym_dot n SS ww e (proj1 PD)). rewrite (dot_comm n (mv n SS ww) e).
    rewrite (dot_ext n e (mv n SS ww) e (fun i => u i + mv m L hh i)) by (auto; apply SS_ww). rewrite dot_add_r, Z.
    rewrite (dot_ext n w' u (fun i => ww i + e i) u); auto. rewrite dot_add_l. fold e. ring.
  Qed.
  Lemma quad_nonneg : forall e, 0 <= quad n SS e.
  Proof.
    intros e. destruct (Classical_Prop.classic (exists j, (j < n)%nat /\ e j <> 0)) as [X|X].
    - left. apply (proj2 PD). exact X.
    - right. unfold quad. rewrite (sumn_ext n _ (fun _ => 0)); [rewrite sumn_zero; reflexivity|].
      intros i I. rewrite (sumn_ext n _ (fun _ => 0)); [apply sumn_zero|]. intros j J.
      destruct (Req_dec (e i) 0) as [Z|Z]; [rewrite Z; ring|]. exfalso. apply X. eauto.
  Qed.
  Lemma mse_best : forall w', (forall j, (j < m)%nat -> mv n (tr L) w' j = l j) -> mse ww <= mse w'.
  Proof. intros w' U. rewrite (mse_shift w' U). pose proof (quad_nonneg (fun i => w' i - ww i)). lra. Qed.
  Lemma mse_unique : forall w', (forall j, (j < m)%nat -> mv n (tr L) w' j = l j) -> mse w' <= mse ww ->
    forall i, (i < n)%nat -> w' i = ww i.
  Proof.
    intros w' U H i I. rewrite (mse_shift w' U) in H.
    destruct (Req_dec (w' i - ww i) 0) as [Z|Z]; [lra|].
    assert (0 < quad n SS (fun i => w' i - ww i)) by (apply (proj2 PD); eauto). lra.
  Qed.
End Blup.

(** ** The kernel exp (-|s-t|/tau) is non-negative definite, any times. *)
Section Kernel.
  Variable tau : R.
  Hypothesis TP : 0 < tau.
  Definition kk (s t : R) : R := exp (- (Rabs (s - t) / tau)).
  Definition lsum (f : R * R -> R) (l : list (R * R)) : R := fold_right (fun p a => f p + a) 0 l.
  (** sum of x x' k(t,t') over all pairs of the list of (t, x) *)
  Definition QQ (l : list (R * R)) : R := lsum (fun p => lsum (fun q => snd p * kk (fst p) (fst q) * snd q) l) l.
  Lemma lsum_ext : forall f g l, (forall p, f p = g p) -> lsum f l = lsum g l.
  Proof. intros f g l H. induction l; cbn [lsum fold_right]; [reflexivity|]. fold (lsum f l) (lsum g l). rewrite H, IHl. reflexivity. Qed.
  Lemma lsum_perm : forall f l l', Permutation l l' -> lsum f l = lsum f l'.
  Proof.
    intros f l l' P. induction P.
    - reflexivity.
    - cbn [lsum fold_right]. fold (lsum f l) (lsum f l'). rewrite IHP. reflexivity.
    - cbn [lsum fold_right]. fold (lsum f l). ring.
    - congruence.
  Qed.
  Lemma QQ_perm : forall l l', Permutation l l' -> QQ l = QQ l'.
  Proof.
    intros l l' P. unfold QQ. rewrite (lsum_perm _ l l' P). apply lsum_ext. intros p. apply lsum_perm. auto.
  Qed.
  Lemma lsum_add : forall f g l, lsum (fun p => f p + g p) l = lsum f l + lsum g l.
  Proof. intros f g l. induction l as [|a l IH]; cbn [lsum fold_right]; [ring|]. fold (lsum (fun p => f p + g p) l) (lsum f l) (lsum g l). rewrite IH. ring. Qed.
  Lemma kk_sym : forall s t, kk s t = kk t s.
  Proof. intros. unfold kk. rewrite Rabs_minus_sym. reflexivity. Qed.
  Lemma kk_same : forall t, kk t t = 1.
  Proof. intros. unfold kk. rewrite Rminus_diag_eq by auto. rewrite Rabs_R0. unfold Rdiv. rewrite Rmult_0_l, Ropp_0. apply exp_0. Qed.
  Lemma QQ_cons : forall t x l, QQ ((t, x) :: l) = x * x + 2 * x * lsum (fun q => kk t (fst q) * snd q) l + QQ l.
  Proof.
    intros t x l. unfold QQ. cbn [lsum fold_right].
    fold (lsum (fun q => snd (t, x) * kk (fst (t, x)) (fst q) * snd q) l).
    cbn [fst snd]. rewrite kk_same.
    assert (E : forall l', lsum (fun p => snd p * kk (fst p) t * x + lsum (fun q => snd p * kk (fst p) (fst q) * snd q) l) l'
       = x * lsum (fun q => kk t (fst q) * snd q) l' + lsum (fun p => lsum (fun q => snd p * kk (fst p) (fst q) * snd q) l) l').
    { intros l'. rewrite lsum_add. f_equal. induction l' as [|a l' IH]; cbn [lsum fold_right]; [ring|].
      fold (lsum (fun p => snd p * kk (fst p) t * x) l') (lsum (fun q => kk t (fst q) * snd q) l'). rewrite IH, (kk_sym (fst a)). ring. }
    assert (F : lsum (fun q => x * kk t (fst q) * snd q) l = x * lsum (fun q => kk t (fst q) * snd q) l).
    { clear E. induction l as [|a l IH]; cbn [lsum fold_right]; [ring|].
      fold (lsum (fun q => x * kk t (fst q) * snd q) l) (lsum (fun q => kk t (fst q) * snd q) l). rewrite IH. ring. }
    rewrite F. specialize (E l). unfold lsum in *. cbn [fst snd] in *. rewrite E. ring.
  Qed.
  Definition tle (p q : R * R) : Prop := fst p <= fst q.
  Lemma sorted_nonneg : forall l, StronglySorted tle l -> 0 <= QQ l /\
    forall t, (forall p, In p l -> t <= fst p) -> Rsqr (lsum (fun q => kk t (fst q) * snd q) l) <= QQ l.
  Proof.
    induction 1 as [|[t1 x] l S [IH0 IH] F].
    - split; [unfold QQ; cbn; lra|]. intros t _. cbn. unfold QQ, Rsqr. cbn. lra.
    - rewrite Forall_forall in F.
      assert (KEY : forall t, (forall p, In p ((t1, x) :: l) -> t <= fst p) ->
        Rsqr (lsum (fun q => kk t (fst q) * snd q) ((t1, x) :: l)) <= QQ ((t1, x) :: l)).
      { intros t HT. rewrite QQ_cons. cbn [lsum fold_right fst snd]. fold (lsum (fun q => kk t (fst q) * snd q) l).
        set (s := lsum (fun q => kk t1 (fst q) * snd q) l).
        assert (B : Rsqr s <= QQ l) by (apply IH; intros p P; exact (F p P)).
        assert (T1 : t <= t1) by (apply (HT (t1, x)); left; auto).
        assert (E : lsum (fun q => kk t (fst q) * snd q) l = kk t t1 * s).
        { unfold s. assert (F' : forall p, In p l -> t1 <= fst p) by (intros p P; exact (F p P)). clear -T1 F' TP.
          induction l as [|a l IHl]; cbn [lsum fold_right]; [ring|].
          fold (lsum (fun q => kk t (fst q) * snd q) l) (lsum (fun q => kk t1 (fst q) * snd q) l).
          rewrite IHl by (intros; apply F'; right; auto). assert (A : t1 <= fst a) by (apply F'; left; auto).
          replace (kk t (fst a)) with (kk t t1 * kk t1 (fst a)); [ring|].
          unfold kk. rewrite <- exp_plus. f_equal. rewrite (Rabs_left1 (t - t1)), (Rabs_left1 (t1 - fst a)), (Rabs_left1 (t - fst a)) by lra.
          field. lra. }
        rewrite E. assert (K1 : 0 < kk t t1 <= 1).
        { unfold kk. split; [apply exp_pos|]. rewrite <- exp_0.
          assert (0 <= Rabs (t - t1) / tau) by (apply Rmult_le_pos; [apply Rabs_pos|left; apply Rinv_0_lt_compat; auto]).
          destruct (Req_dec (Rabs (t - t1) / tau) 0) as [Z|Z]; [rewrite Z, Ropp_0; lra|]. left. apply exp_increasing. lra. }
        unfold Rsqr in *.
        replace ((kk t t1 * x + kk t t1 * s) * (kk t t1 * x + kk t t1 * s)) with (kk t t1 * kk t t1 * ((x + s) * (x + s))) by ring.
        clear - K1 B. generalize dependent s. generalize dependent (kk t t1). intros k K1 s B. generalize (QQ l) B. intros Q B'.
        assert (P : 0 <= (x + s) * (x + s)) by apply Rle_0_sqr.
        assert (K2 : k * k <= 1) by nra. assert (M : k * k * ((x + s) * (x + s)) <= 1 * ((x + s) * (x + s))) by (apply Rmult_le_compat_r; auto). lra. }
      split; [|exact KEY]. apply Rle_trans with (Rsqr (lsum (fun q => kk t1 (fst q) * snd q) ((t1, x) :: l))); [apply Rle_0_sqr|].
      apply KEY. intros p [<-|P]; [cbn; lra|exact (F p P)].
  Qed.
  (** insertion sort on the times *)
  Fixpoint ins (p : R * R) (l : list (R * R)) : list (R * R) :=
    match l with [] => [p] | q :: r => if Rle_dec (fst p) (fst q) then p :: q :: r else q :: ins p r end.
  Lemma ins_perm : forall p l, Permutation (p :: l) (ins p l).
  Proof. intros p l. induction l as [|q r IH]; cbn [ins]; [auto|]. destruct (Rle_dec (fst p) (fst q)); [auto|]. eapply perm_trans; [apply perm_swap|]. constructor. auto. Qed.
  Lemma ins_sorted : forall p l, StronglySorted tle l -> StronglySorted tle (ins p l).
  Proof.
    intros p l S. induction S as [|q r S IH F]; cbn [ins]; [repeat constructor|].
    destruct (Rle_dec (fst p) (fst q)) as [H|H].
    - constructor; [constructor; auto|]. constructor; [exact H|]. rewrite Forall_forall in *. intros a A. specialize (F a A). unfold tle in *. lra.
    - constructor; [exact IH|]. rewrite Forall_forall in *. intros a A. apply (Permutation_in _ (Permutation_sym (ins_perm p r))) in A.
      destruct A as [<-|A]; [unfold tle; lra|auto].
  Qed.
  Theorem kernel_nonneg : forall l, 0 <= QQ l.
  Proof.
    intros l. assert (H : exists l', Permutation l l' /\ StronglySorted tle l').
    { induction l as [|p l (l' & P & S)]; [exists []; split; [auto|constructor]|].
      exists (ins p l'). split; [eapply perm_trans; [apply perm_skip; exact P|apply ins_perm]|apply ins_sorted; auto]. }
    destruct H as (l' & P & S). rewrite (QQ_perm l l' P). apply (sorted_nonneg l' S).
  Qed.
  (** in the form of sums over indices *)
  Lemma lsum_map : forall f n (g : nat -> R * R), lsum f (map g (seq 0 n)) = sumn n (fun i => f (g i)).
  Proof.
    intros f n g. induction n; [reflexivity|]. rewrite seq_S, map_app. cbn [sumn map].
    assert (E : forall a b, lsum f (a ++ b) = lsum f a + lsum f b).
    { unfold lsum. induction a as [|x a IH]; intros b; cbn [fold_right app]; [ring|]. rewrite IH. ring. }
    rewrite E, IHn. cbn. ring.
  Qed.
  Lemma joint_nonneg : forall n t x s x0,
    0 <= x0 * x0 + 2 * x0 * sumn n (fun k => x k * kk s (t k)) + sumn n (fun i => sumn n (fun j => x i * kk (t i) (t j) * x j)).
  Proof.
    intros n t x s x0. pose proof (kernel_nonneg ((s, x0) :: map (fun i => (t i, x i)) (seq 0 n))) as H.
    rewrite QQ_cons, lsum_map in H. unfold QQ in H. rewrite lsum_map in H. cbn [fst snd] in H.
    rewrite (sumn_ext n (fun k => kk s (t k) * x k) (fun k => x k * kk s (t k))) in H by (intros; ring).
    match type of H with 0 <= ?a + sumn n ?f => rewrite (sumn_ext n f (fun i => sumn n (fun j => x i * kk (t i) (t j) * x j))) in H end; [exact H|].
    intros i I. rewrite lsum_map. reflexivity.
  Qed.
End Kernel.

(** ** The trends at the reconstructed times *)
Lemma rec_trend_ok : forall nq nl nall tall L0, (1 <= nq)%nat ->
  forall c k m, (c <= nl)%nat -> (k < nall c)%nat -> (m < nq * (1 + nl))%nat ->
  rec_trend nq nl nall tall L0 ((psum nall c + k) * (nq * (1 + nl)) + m)%nat = entry nq c (tall (psum nall c + k)%nat) m.
Proof.
  intros nq nl nall tall L0 NQ. unfold rec_trend. set (nqall := (nq * (1 + nl))%nat).
  assert (NA : (1 <= nq <= nqall)%nat) by (unfold nqall; nia).
  destruct (for_rows (nall 0%nat) nqall 0 (con_row nq nqall tall) (fun i j => entry nq 0 (tall i) j) L0) as [R1 R2].
  { intros i b I. apply con_row_ok. auto. }
  set (L1 := for_ 0 (nall 0%nat) _ L0) in *.
  pose proof (for_inv (nat * arr) (fun j s => fst s = psum nall (S j) /\
    (forall c k m, (c <= j)%nat -> (k < nall c)%nat -> (m < nqall)%nat ->
       snd s ((psum nall c + k) * nqall + m)%nat = entry nq c (tall (psum nall c + k)%nat) m)) 0 nl
    (fun k s => let '(np, L) := s in
      ((np + nall (1 + k))%nat, for_ 0 (nall (1 + k)%nat) (line_row nq nqall np k (fun i => tall (np + i)%nat)) L)) (nall 0%nat, L1)) as G.
  cbv beta in G. match type of G with ?u -> ?v -> ?w => assert (G' : w) end.
  { apply G.
    - split; [reflexivity|]. intros c k m C K M. assert (c = 0)%nat by lia. subst. cbn [snd psum].
      exact (R1 k m K M).
    - intros i [np L] I [H1 H2]. cbn [fst snd] in *. split; [subst np; reflexivity|].
      destruct (for_rows (nall (S i)) nqall np (line_row nq nqall np i (fun i => tall (np + i)%nat)) (fun k m => entry nq (S i) (tall (np + k)%nat) m) L) as [A1 A2].
      { intros k b K. apply (line_row_ok nq nqall np i (fun i => tall (np + i)%nat) k b); auto. unfold nqall. nia. }
      intros c k m C K M. destruct (Nat.eq_dec c (S i)) as [->|NE].
      + rewrite <- H1. apply A1; auto.
      + cbn [Nat.add] in *. rewrite A2; [apply H2; auto; lia|]. left. subst np.
        assert (psum nall c + k < psum nall (S i))%nat; [|nia].
        pose proof (psum_le (S i) (S c) nall). simpl in H. simpl. lia. }
  intros c k m C K M. apply (proj2 G'); auto.
Qed.

(** ** What the products of the program come to *)
Section LineEnd.
  Context {IP : Type}.
  Variable dsytrf : nat -> (nat -> nat -> R) -> (nat -> nat -> R) * IP.
  Variable dsytri : nat -> (nat -> nat -> R) -> IP -> nat -> nat -> R.
  Hypothesis LP : dsytr_spec dsytrf dsytri.

  Lemma line_rec_end_ok : forall n m T Cinv Larr y US AS Lrec f0 PE0 sigma SS Si L Gi,
    0 < sigma -> spd n SS -> inv_of n SS Si -> inv_of m (gram n Si L) Gi ->
    (forall v, (forall i, (i < n)%nat -> mv m L v i = 0) -> forall j, (j < m)%nat -> v j = 0) ->
    (forall i j, (i < n)%nat -> (j < n)%nat -> Cinv (i * n + j)%nat = sigma * sigma * Si i j) ->
    (forall i j, (i < n)%nat -> (j < m)%nat -> Larr (i * m + j)%nat = L i j) ->
    let out := line_rec_end dsytrf dsytri n m T Cinv Larr y US AS Lrec f0 PE0 sigma in
    let q := mv m Gi (mv n (tr L) (mv n Si y)) in
    (forall j, (j < m)%nat -> rec_yq out j = q j) /\
    forall i u l A, (i < T)%nat ->
      (forall k, (k < n)%nat -> US (i * n + k)%nat = u k / (sigma * sigma)) -> AS (i * T + i)%nat = A / (sigma * sigma) ->
      (forall j, (j < m)%nat -> Lrec (i * m + j)%nat = l j) ->
      rec_f out i = dot n u (mv n Si (resid m L y q)) + dot m l q /\
      rec_fe out i = sigma * sqrt ((A - dot n u (mv n Si u) + dot m (dd n Si L u l) (mv m Gi (dd n Si L u l))) / (sigma * sigma)).
  Proof.
    intros n m T Cinv Larr y US AS Lrec f0 PE0 sigma SS Si L Gi SG PD HI HG INJ HC HLa. unfold line_rec_end. cbv zeta.
    assert (S2 : 0 < sigma * sigma) by nra. pose proof (spd_inv _ _ _ PD HI) as PDi.
    pose proof (gram_spd _ _ _ _ PDi INJ) as PG.
    set (ybuf := mul_MN Cinv Larr n m n). set (Cq := mul_tA Larr ybuf m m n). set (yuq := matvec_tA ybuf n m y).
    assert (EY : forall i j, (i < n)%nat -> (j < m)%nat -> ybuf (i * m + j)%nat = sigma * sigma * sumn n (fun l => Si i l * L l j)).
    { intros i j I J. unfold ybuf, mul_MN. rewrite tab_val by auto. rewrite <- sumn_scal. apply sumn_ext.
      intros l Hl. rewrite HC, HLa by auto. ring. }
    assert (ECq : forall i j, (i < m)%nat -> (j < m)%nat -> Cq (0 + i * m + j)%nat = sigma * sigma * gram n Si L i j).
    { intros i j I J. cbn [Nat.add]. unfold Cq, mul_tA. rewrite tab_val by auto. unfold gram. rewrite <- sumn_scal. apply sumn_ext.
      intros l Hl. rewrite EY, HLa by auto. ring. }
    assert (PG2 : spd m (fun i j => sigma * sigma * gram n Si L i j)) by (apply spd_scal; auto).
    pose proof (inv_scal m (sigma * sigma) _ Gi (Rgt_not_eq _ _ S2) HG) as HG2.
    destruct (inverse_symat_ok dsytrf dsytri LP Cq 0 m _ _ (fun i j IJ => ECq i j ltac:(lia) ltac:(lia)) (proj1 PG2) HG2) as [H1 _].
    set (Cq' := inverse_symat dsytrf dsytri Cq 0 m) in *. cbn [rec_yq rec_f rec_fe].
    set (yq := mul_MN Cq' yuq m 1 m). set (q := mv m Gi (mv n (tr L) (mv n Si y))).
    assert (Q : forall j, (j < m)%nat -> yq j = q j).
    { intros j J. unfold yq, mul_MN. replace j with (j * 1 + 0)%nat at 1 by lia. rewrite tab_val by lia.
      unfold q, mv at 1. apply sumn_ext. intros l Hl.
      change (j * m + l)%nat with (0 + j * m + l)%nat. rewrite H1 by auto.
      replace (l * 1 + 0)%nat with l by lia. unfold yuq, matvec_tA.
      rewrite (sumn_ext n _ (fun k => sigma * sigma * (sumn n (fun b => Si k b * L b l) * y k))).
      2: { intros k K. rewrite EY by auto. ring. }
      rewrite sumn_scal.
      assert (E : mv n (tr L) (mv n Si y) l = sumn n (fun k => sumn n (fun b => Si k b * L b l) * y k)).
      { rewrite mv_mv. unfold mv, tr. apply sumn_ext. intros k K. f_equal. apply sumn_ext. intros b B.
        rewrite (proj1 PDi b k B K). ring. }
      rewrite E. field. lra. }
    split; [exact Q|]. intros i u l A I HU HA HL.
    set (y' := matvec_ab Larr n m yq y (-1) 1).
    assert (Y : forall k, (k < n)%nat -> y' k = resid m L y q k).
    { intros k K. unfold y', matvec_ab, resid, mv. rewrite (sumn_ext m _ (fun j => L k j * q j)); [ring|].
      intros j J. rewrite HLa, Q by auto. reflexivity. }
    set (PE1 := mul_MN US Cinv T n n).
    assert (E1 : forall k, (k < n)%nat -> PE1 (i * n + k)%nat = mv n (tr Si) u k).
    { intros k K. unfold PE1, mul_MN. rewrite tab_val by auto. unfold mv, tr. apply sumn_ext. intros a Ha. rewrite HU, HC by auto. field. lra. }
    assert (TS : forall k, (k < n)%nat -> mv n (tr Si) u k = mv n Si u k).
    { intros k K. apply mv_ext; auto. intros j J. unfold tr. apply (proj1 PDi); auto. }
    split.
    - unfold matvec_ab, matvec_MN. rewrite (dot_tr n n u Si).
      rewrite (sumn_ext n _ (fun k => mv n (tr Si) u k * resid m L y q k)) by (intros k K; rewrite E1, Y by auto; reflexivity).
      rewrite (sumn_ext m _ (fun j => l j * q j)) by (intros j J; rewrite HL, Q by auto; reflexivity). unfold dot. ring.
    - set (D := dd n Si L u l). set (Lr := mul_MN_ab PE1 Larr Lrec T m n 1 (-1)).
      assert (EL : forall j, (j < m)%nat -> Lr (i * m + j)%nat = - D j).
      { intros j J. unfold Lr, mul_MN_ab. rewrite tab_val by auto. rewrite HL by auto. unfold D, dd, mv at 1.
        rewrite (sumn_ext n _ (fun k => tr L j k * mv n Si u k)); [ring|]. intros k K. rewrite E1, HLa, TS by auto. unfold tr. ring. }
      set (PE1' := mul_MN Lr Cq' T m m).
      assert (E1' : forall j, (j < m)%nat -> PE1' (i * m + j)%nat = - / (sigma * sigma) * mv m (tr Gi) D j).
      { intros j J. unfold PE1', mul_MN. rewrite tab_val by auto. unfold mv. rewrite <- sumn_scal. apply sumn_ext. intros b B.
        change (b * m + j)%nat with (0 + b * m + j)%nat. rewrite EL, H1 by auto. unfold tr. field. lra. }
      f_equal. f_equal. rewrite HA. unfold mul_tB_ab. rewrite tab_val by auto. unfold mul_tB. rewrite tab_val by auto.
      rewrite (sumn_ext m _ (fun j => / (sigma * sigma) * (mv m (tr Gi) D j * D j))) by (intros j J; rewrite E1', EL by auto; ring).
      rewrite (sumn_ext n _ (fun k => / (sigma * sigma) * (mv n (tr Si) u k * u k))) by (intros k K; rewrite E1, HU by auto; unfold Rdiv; ring).
      rewrite !sumn_scal. rewrite (dot_tr n n u Si), (dot_tr m m D Gi). unfold dot, Rdiv. ring.
  Qed.
End LineEnd.
