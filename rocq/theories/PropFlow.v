(** C97: what a run does, and in which order. *)
From Coq Require Import Ascii String Reals ZArith QArith Qreals List Bool Arith Lia Lra.
From Verif Require Import CPrelude ListLemmas SemisepModel ParamModel SpanModel PropSpan SmallModel RangeModel PropRange GetoptModel DampModel FlowModel.
Import ListNotations.
Open Scope nat_scope.

(** ** Reading a trace *)
(** [a] happens before every [b] *)
Definition before (a b : event) (t : list event) : Prop := forall t1 t2, t = t1 ++ b :: t2 -> In a t1.
(** nothing at all happens between the last [a] and [b] *)
Definition just_before (a b : event) (t : list event) : Prop := forall t1 t2, t = t1 ++ b :: t2 -> exists t0, t1 = t0 ++ [a].
(** the numbers of components with a posterior sample, a parameter table, a
    summary and curves, components, in the order of the trace *)
Definition posteriors (t : list event) : list nat := flat_map (fun e => match e with Posterior (Line k) => [k] | _ => [] end) t.
Definition tables (t : list event) : list nat := flat_map (fun e => match e with Table k _ _ => [k] | _ => [] end) t.
Definition summaries (t : list event) : list nat := flat_map (fun e => match e with Summary k => [k] | _ => [] end) t.
Definition curves (t : list event) : list nat := flat_map (fun e => match e with Curves k => [k] | _ => [] end) t.
Definition parts (t : list event) : list nat := flat_map (fun e => match e with Parts k => [k] | _ => [] end) t.
Definition samples (t : list event) : list (part * bool) := flat_map (fun e => match e with Sample p c => [(p, c)] | _ => [] end) t.
Definition evidences (t : list event) : list (list (nat * R)) := flat_map (fun e => match e with Evidence z => [z] | _ => [] end) t.

(** the numbers of components that the settings ask for; the mixed mode takes the
    lowest only *)
Definition asked (m : mode) (low diff : nat) : list nat :=
  match m with nmap => [] | mmap => [low] | _ => seq low diff end.

Section Run.
Variables snapshot kept : part -> bool.
Variable loads : nat -> bool.
Variables data_dir param_dir : bool.
Variable fit : arr * arr.
Variable logz : nat -> R.
Variable m : mode.
Variables low diff : nat.
Notation run := (main_run snapshot kept loads data_dir param_dir fit logz m low diff).

(** the options that make a run: neither -e nor -v *)
Definition runs (f : flags) : Prop := examine f = false /\ endrun f = false.
(** options that ask for no sampling: -p and -d *)
Definition no_sampling (f : flags) : Prop := postprc f = true \/ decomp f = true.

(** *** Normal form *)
Definition sampling (p : part) (restart post : bool) : list event := (if post then [] else [Sample p restart]) ++ [Posterior p].
Definition can (p : part) (restart post : bool) : bool := if post then kept p else negb restart || snapshot p.
Definition number_trace (f : flags) (post : bool) (var : arr * arr) (k : nat) : list event :=
  (if load_prior f then [Priors k] else []) ++ [Table k (fst var) (snd var)] ++
  (if para_name f then [] else sampling (Line k) (restart f) post) ++
  (if negb (para_name f) && negb (postsample f) then
     [Summary k; Curves k] ++ (if match m with vmap => false | mmap => decomp f | _ => (1 <? k) && decomp f end then [Parts k] else [])
   else []).
Definition number_ok (f : flags) (post : bool) (k : nat) : bool :=
  (negb (load_prior f) || loads k) && (para_name f || can (Line k) (restart f) post).
Definition driver_trace (f : flags) (post : bool) (var : arr * arr) : list event :=
  flat_map (number_trace f post var) (asked m low diff) ++ (if para_name f then [] else [Evidence (map (fun k => (k, logz k)) (asked m low diff))]).
Definition has_con (f : flags) : bool := runs_mc_con (postprc f) (decomp f) m.
Definition post_con (f : flags) : bool := restart f || postprc f.
Definition post_line (f : flags) : bool := if has_con f && restart f then false else postprc f.
Definition run_trace (f : flags) : list event :=
  [Settings; Data; Setup] ++ (if has_con f then sampling Con (restart f) (post_con f) ++ [Fit; ConCurve] else []) ++
  (match m with nmap => [] | _ => driver_trace f (post_line f) (if has_con f then fit else zeros) end).
Definition run_ok (f : flags) : bool :=
  data_dir && param_dir && (negb (has_con f) || can Con (restart f) (post_con f)) &&
  forallb (number_ok f (post_line f)) (asked m low diff).

Lemma dnest_nf : forall p r post, dnest snapshot kept p r post = (if can p r post then Ok (sampling p r post) else Exit).
Proof.
  intros p r post. unfold dnest, can, sampling. destruct post; [reflexivity|].
  destruct r, (snapshot p); reflexivity.
Qed.
Lemma number_nf : forall f post var k,
  one_number snapshot kept loads m f post var k = (if number_ok f post k then Ok (number_trace f post var k) else Exit).
Proof.
  intros f post var k. unfold one_number, dnest_model, number_ok, number_trace. rewrite dnest_nf.
  destruct (load_prior f), (loads k), (para_name f), (can (Line k) (restart f) post); cbn [negb orb andb bind]; try reflexivity;
  rewrite <- ?app_assoc; reflexivity.
Qed.
Lemma mapM_nf : forall A B (f : A -> outcome B) (ok : A -> bool) (g : A -> B) l, (forall a, f a = if ok a then Ok (g a) else Exit) ->
  mapM f l = if forallb ok l then Ok (map g l) else Exit.
Proof.
  intros A B f ok g l H. induction l as [|a l IH]; [reflexivity|]. cbn [mapM forallb map]. rewrite H, IH.
  destruct (ok a); cbn [bind andb]; [|reflexivity]. destruct (forallb ok l); reflexivity.
Qed.
Lemma seq_map : forall n a, map (fun j => a + j) (seq 0 n) = seq a n.
Proof.
  intros n a. enough (H : forall s, map (fun j => a + j) (seq s n) = seq (a + s) n) by (rewrite H; f_equal; lia).
  induction n as [|n IH]; intro s; [reflexivity|]. cbn [seq map]. f_equal. rewrite IH. f_equal. lia.
Qed.
Lemma numbers_asked : m <> nmap -> numbers m low diff = asked m low diff.
Proof. intro H. unfold numbers, asked. destruct m; try reflexivity; try apply seq_map. congruence. Qed.
Lemma driver_nf : forall f post var, m <> nmap ->
  driver snapshot kept loads logz m low diff f post var =
  if forallb (number_ok f post) (asked m low diff) then Ok (driver_trace f post var) else Exit.
Proof.
  intros f post var H. unfold driver. rewrite (numbers_asked H).
  rewrite (mapM_nf _ _ _ (number_ok f post) (number_trace f post var)) by (intro; apply number_nf).
  destruct (forallb (number_ok f post) (asked m low diff)); cbn [bind]; [|reflexivity].
  unfold driver_trace. rewrite flat_map_concat_map. reflexivity.
Qed.
Lemma run_nf : forall f, runs f -> run f = if run_ok f then Ok (run_trace f) else Exit.
Proof.
  intros f [E1 E2]. unfold main_run. rewrite E1, E2. unfold begin_run, run_ok.
  destruct (data_dir && param_dir); cbn [negb andb]; [|reflexivity].
  fold (has_con f). unfold run_trace.
  assert (C : (if has_con f then if restart f then mc_con snapshot kept true true else mc_con snapshot kept false (postprc f) else Ok []) =
    if negb (has_con f) || can Con (restart f) (post_con f) then Ok (if has_con f then sampling Con (restart f) (post_con f) ++ [Fit; ConCurve] else []) else Exit).
  { unfold mc_con, post_con. destruct (has_con f); cbn [negb orb]; [|reflexivity].
    destruct (restart f); rewrite dnest_nf; cbn [orb]; destruct (can Con _ _); reflexivity. }
  rewrite C. destruct (negb (has_con f) || can Con (restart f) (post_con f)); cbn [bind andb]; [|reflexivity].
  fold (post_line f). destruct m eqn:M; try reflexivity;
    (rewrite <- M; rewrite driver_nf by congruence;
     replace (asked m low diff) with (asked m low diff) by reflexivity;
     destruct (forallb (number_ok f (post_line f)) (asked m low diff)) eqn:F; cbn [bind]; rewrite ?M in *; rewrite ?F; reflexivity).
Qed.

Lemma run_inv : forall f t, runs f -> run f = Ok t -> t = run_trace f /\ run_ok f = true.
Proof. intros f t R E. rewrite (run_nf f R) in E. destruct (run_ok f); [|discriminate]. split; congruence. Qed.

Lemma fm_app : forall A B (h : A -> list B) l r, flat_map h (l ++ r) = flat_map h l ++ flat_map h r.
Proof. intros. apply flat_map_app. Qed.
Lemma fm_fm : forall A B C (g : A -> list B) (h : B -> list C) l, flat_map h (flat_map g l) = flat_map (fun a => flat_map h (g a)) l.
Proof. intros A B C g h l. induction l as [|a l IH]; [reflexivity|]. cbn [flat_map]. rewrite fm_app, IH. reflexivity. Qed.
Lemma fm_ext : forall A B (g h : A -> list B) l, (forall a, g a = h a) -> flat_map g l = flat_map h l.
Proof. intros A B g h l H. induction l as [|a l IH]; [reflexivity|]. cbn [flat_map]. rewrite H, IH. reflexivity. Qed.
Lemma fm_one : forall A B (g : A -> B) l, flat_map (fun a => [g a]) l = map g l.
Proof. intros A B g l. induction l as [|a l IH]; [reflexivity|]. cbn. rewrite IH. reflexivity. Qed.
Lemma fm_nil : forall A B (l : list A), flat_map (fun _ => @nil B) l = [].
Proof. intros A B l. induction l as [|a l IH]; [reflexivity|]. exact IH. Qed.

(** what a function of the events gives on a whole trace *)
Lemma on_trace : forall B (h : event -> list B) f, m <> nmap ->
  flat_map h (run_trace f) = flat_map h [Settings; Data; Setup] ++
    flat_map h (if has_con f then sampling Con (restart f) (post_con f) ++ [Fit; ConCurve] else []) ++
    flat_map (fun k => flat_map h (number_trace f (post_line f) (if has_con f then fit else zeros) k)) (asked m low diff) ++
    flat_map h (if para_name f then [] else [Evidence (map (fun k => (k, logz k)) (asked m low diff))]).
Proof.
  intros B h f M. unfold run_trace, driver_trace. destruct m; try congruence; rewrite !fm_app, fm_fm; reflexivity.
Qed.
Ltac onto h f := unfold h; rewrite on_trace by assumption; fold h.

(** *** The numbers of components *)
(** Every number asked for is taken once, in order: parameter table, posterior
    sample, summary and curves; the evidence file comes last and lists them all. *)
Definition about (e : event) : list nat :=
  match e with
  | Sample (Line k) _ | Posterior (Line k) | Priors k | Table k _ _ | Summary k | Curves k | Parts k => [k]
  | _ => []
  end.
Fixpoint in_order (l : list nat) : Prop := match l with [] => True | a :: r => (forall b, In b r -> a <= b) /\ in_order r end.

Lemma in_order_app : forall l r, in_order l -> in_order r -> (forall a b, In a l -> In b r -> a <= b) -> in_order (l ++ r).
Proof.
  induction l as [|x l IH]; intros r Hl Hr H; [exact Hr|]. cbn [app in_order] in *. destruct Hl as [H1 H2]. split.
  - intros b Hb. apply in_app_or in Hb. destruct Hb as [Hb|Hb]; [auto|]. apply H; [left; reflexivity|exact Hb].
  - apply IH; auto. intros a b Ha Hb. apply H; [right; exact Ha|exact Hb].
Qed.
Lemma in_order_same : forall k l, (forall a, In a l -> a = k) -> in_order l.
Proof.
  intros k l. induction l as [|x l IH]; intro H; [exact Logic.I|]. cbn. split.
  - intros b Hb. rewrite (H x (or_introl eq_refl)), (H b (or_intror Hb)). lia.
  - apply IH. intros a Ha. apply H. right. exact Ha.
Qed.
Lemma in_order_flat : forall (g : nat -> list nat) l, in_order l -> (forall k a, In a (g k) -> a = k) -> in_order (flat_map g l).
Proof.
  intros g l. induction l as [|k l IH]; intros Hl Hg; [exact Logic.I|]. cbn [flat_map in_order] in *. destruct Hl as [H1 H2].
  apply in_order_app; [apply (in_order_same k); apply Hg|auto|].
  intros a b Ha Hb. apply in_flat_map in Hb. destruct Hb as (k' & Hk & Hb). apply Hg in Ha. apply Hg in Hb. subst. auto.
Qed.
Lemma in_order_seq : forall n a, in_order (seq a n).
Proof.
  induction n as [|n IH]; intro a; [exact Logic.I|]. cbn [seq in_order]. split; [|apply IH]. intros b Hb. apply in_seq in Hb. lia.
Qed.
Lemma in_order_asked : in_order (asked m low diff).
Proof. unfold asked. destruct m; try apply in_order_seq; try exact Logic.I. split; [intros b []|exact Logic.I]. Qed.
Lemma about_number : forall f post var k a, In a (flat_map about (number_trace f post var k)) -> a = k.
Proof.
  intros f post var k a. unfold number_trace, sampling.
  assert (P : forall b : bool, flat_map about (if b then [Parts k] else []) = if b then [k] else []) by (intros []; reflexivity).
  rewrite !fm_app.
  destruct (load_prior f), (para_name f), (postsample f), post; cbn [negb andb app flat_map about]; rewrite ?fm_app; cbn [app flat_map about]; rewrite ?P;
    repeat match goal with |- context [if ?b then [k] else []] => destruct b end; cbn [In app]; intuition congruence.
Qed.

Theorem C97_numbers : forall f t, runs f -> m <> nmap -> run f = Ok t ->
  tables t = asked m low diff /\
  in_order (flat_map about t) /\
  (if para_name f then posteriors t = [] /\ evidences t = []
   else posteriors t = asked m low diff /\ exists t', t = t' ++ [Evidence (map (fun k => (k, logz k)) (asked m low diff))] /\ evidences t' = []) /\
  (if para_name f || postsample f then summaries t = [] /\ curves t = []
   else summaries t = asked m low diff /\ curves t = asked m low diff).
Proof.
  intros f t R M E. apply (run_inv f t R) in E. destruct E as [-> _].
  assert (C : forall B (h : event -> list B), h (Sample Con (restart f)) = [] -> h (Posterior Con) = [] -> h Fit = [] -> h ConCurve = [] ->
    flat_map h (if has_con f then sampling Con (restart f) (post_con f) ++ [Fit; ConCurve] else []) = []).
  { intros B h H1 H2 H3 H4. destruct (has_con f); [|reflexivity]. unfold sampling. destruct (post_con f); cbn [app flat_map]; rewrite ?H1, ?H2, ?H3, ?H4; reflexivity. }
  assert (P : forall B (h : event -> list B) k (b : bool), h (Parts k) = [] -> flat_map h (if b then [Parts k] else []) = []).
  { intros B h k [] H; cbn [flat_map]; rewrite ?H; reflexivity. }
  split; [|split; [|split]].
  - unfold tables. rewrite on_trace by assumption. rewrite C by reflexivity. cbn [flat_map app].
    rewrite (fm_ext _ _ _ (fun k => [k])), fm_one, map_id.
    + destruct (para_name f); cbn [flat_map app]; apply app_nil_r.
    + intro k. unfold number_trace, sampling. rewrite !fm_app.
      destruct (load_prior f), (para_name f), (postsample f), (post_line f); cbn [negb andb app flat_map]; rewrite ?fm_app; cbn [app flat_map]; rewrite ?P by reflexivity; reflexivity.
  - rewrite on_trace by assumption. rewrite C by reflexivity. cbn [flat_map app about].
    assert (Z : flat_map about (if para_name f then [] else [Evidence (map (fun k => (k, logz k)) (asked m low diff))]) = []) by (destruct (para_name f); reflexivity).
    rewrite Z, app_nil_r. apply in_order_flat; [apply in_order_asked|]. intros k a. apply about_number.
  - destruct (para_name f) eqn:N.
    + unfold posteriors, evidences. rewrite !on_trace by assumption. rewrite !C by reflexivity. rewrite N. cbn [flat_map app].
      split.
      * rewrite app_nil_r, (fm_ext _ _ _ (fun _ => [])); [apply fm_nil|]. intro k. unfold number_trace. rewrite N. destruct (load_prior f); reflexivity.
      * rewrite app_nil_r, (fm_ext _ _ _ (fun _ => [])); [apply fm_nil|]. intro k. unfold number_trace. rewrite N. destruct (load_prior f); reflexivity.
    + split.
      * unfold posteriors. rewrite on_trace by assumption. rewrite C by reflexivity. rewrite N. cbn [flat_map app]. rewrite app_nil_r.
        rewrite (fm_ext _ _ _ (fun k => [k])), fm_one; [apply map_id|]. intro k. unfold number_trace, sampling. rewrite N, !fm_app.
        destruct (load_prior f), (postsample f), (post_line f); cbn [negb andb app flat_map]; rewrite ?fm_app; cbn [app flat_map]; rewrite ?P by reflexivity; reflexivity.
      * exists ([Settings; Data; Setup] ++ (if has_con f then sampling Con (restart f) (post_con f) ++ [Fit; ConCurve] else []) ++
          flat_map (number_trace f (post_line f) (if has_con f then fit else zeros)) (asked m low diff)).
        split.
        -- unfold run_trace, driver_trace. destruct m; try congruence; rewrite N, <- !app_assoc; reflexivity.
        -- unfold evidences. rewrite !fm_app, fm_fm. rewrite C by reflexivity. cbn [flat_map app].
           rewrite (fm_ext _ _ _ (fun _ => [])); [apply fm_nil|]. intro k. unfold number_trace, sampling. rewrite N, !fm_app.
           destruct (load_prior f), (postsample f), (post_line f); cbn [negb andb app flat_map]; rewrite ?fm_app; cbn [app flat_map]; rewrite ?P by reflexivity; reflexivity.
  - assert (H : forall h : event -> list nat, (h = (fun e => match e with Summary k => [k] | _ => [] end) \/ h = (fun e => match e with Curves k => [k] | _ => [] end)) ->
      flat_map h (run_trace f) = if para_name f || postsample f then [] else asked m low diff).
    { intros h Hh. rewrite on_trace by assumption. rewrite C by (destruct Hh; subst h; reflexivity).
      assert (Z : flat_map h (if para_name f then [] else [Evidence (map (fun k => (k, logz k)) (asked m low diff))]) = []) by (destruct Hh; subst h; destruct (para_name f); reflexivity).
      rewrite Z, app_nil_r. replace (flat_map h [Settings; Data; Setup]) with (@nil nat) by (destruct Hh; subst h; reflexivity). cbn [app].
      rewrite (fm_ext _ _ _ (fun k => if para_name f || postsample f then [] else [k])).
      - destruct (para_name f || postsample f); [apply fm_nil|]. rewrite fm_one. apply map_id.
      - intro k. unfold number_trace, sampling. rewrite !fm_app.
        destruct Hh; subst h; destruct (load_prior f), (para_name f), (postsample f), (post_line f); cbn [negb andb orb app flat_map]; rewrite ?fm_app; cbn [app flat_map]; rewrite ?P by reflexivity; reflexivity. }
    unfold summaries, curves. rewrite !H by auto. destruct (para_name f || postsample f); auto.
Qed.

(** *** What is sampled *)
Theorem C97_sampling : forall f t, runs f -> (decomp f = true -> postprc f = true) -> m <> nmap -> run f = Ok t ->
  samples t =
    (if postprc f then [] else
     (if restart f then [] else match m with vmap => [] | _ => [(Con, false)] end) ++
     (if para_name f then [] else map (fun k => (Line k, restart f)) (asked m low diff))).
Proof.
  intros f t R D M E. apply (run_inv f t R) in E. destruct E as [-> _].
  unfold samples. rewrite on_trace by assumption.
  assert (Z : flat_map (fun e => match e with Sample p c => [(p, c)] | _ => [] end) (if para_name f then [] else [Evidence (map (fun k => (k, logz k)) (asked m low diff))]) = []) by (destruct (para_name f); reflexivity).
  rewrite Z, app_nil_r. cbn [flat_map app].
  rewrite (fm_ext _ _ _ (fun k => if para_name f || post_line f then [] else [(Line k, restart f)])).
  2:{ intro k. unfold number_trace, sampling. rewrite !fm_app.
      assert (P : forall b : bool, flat_map (fun e => match e with Sample p c => [(p, c)] | _ => [] end) (if b then [Parts k] else []) = []) by (intros []; reflexivity).
      destruct (load_prior f), (para_name f), (postsample f), (post_line f); cbn [negb andb orb app flat_map]; rewrite ?fm_app; cbn [app flat_map]; rewrite ?P; reflexivity. }
  assert (Hc : has_con f = negb (postprc f) && match m with vmap => false | _ => true end).
  { unfold has_con, runs_mc_con. destruct m; try congruence; destruct (postprc f), (decomp f); cbn; try reflexivity; specialize (D eq_refl); discriminate. }
  assert (L : post_line f = postprc f).
  { unfold post_line. rewrite Hc. destruct (postprc f), (match m with vmap => false | _ => true end), (restart f); reflexivity. }
  rewrite L, Hc. unfold post_con, sampling.
  destruct (postprc f); cbn [negb andb].
  - rewrite orb_true_r. apply fm_nil.
  - rewrite !orb_false_r. f_equal.
    + destruct m, (restart f); reflexivity.
    + destruct (para_name f); [apply fm_nil|]. rewrite fm_one. reflexivity.
Qed.

(** *** The priors of the lines *)
Lemma app_split : forall A (l1 l2 t1 t2 : list A) b, l1 ++ l2 = t1 ++ b :: t2 ->
  (exists r, l1 = t1 ++ b :: r) \/ (exists r, t1 = l1 ++ r /\ l2 = r ++ b :: t2).
Proof.
  induction l1 as [|x l1 IH]; intros l2 t1 t2 b E.
  - right. exists t1. auto.
  - destruct t1 as [|y t1]; cbn in E.
    + injection E as -> E. left. exists l1. reflexivity.
    + injection E as -> E. destruct (IH _ _ _ _ E) as [(r & ->)|(r & -> & ->)]; [left; exists r; reflexivity|right; exists r; auto].
Qed.
Lemma jb_app : forall a b l1 l2, just_before a b l1 -> just_before a b l2 -> just_before a b (l1 ++ l2).
Proof.
  intros a b l1 l2 H1 H2 t1 t2 E. destruct (app_split _ _ _ _ _ _ E) as [(r & E1)|(r & -> & E2)].
  - exact (H1 _ _ E1).
  - destruct (H2 _ _ E2) as (t0 & ->). exists (l1 ++ t0). apply app_assoc.
Qed.
Lemma jb_none : forall a b l, ~ In b l -> just_before a b l.
Proof. intros a b l H t1 t2 E. exfalso. apply H. rewrite E. apply in_or_app. right. left. reflexivity. Qed.
Lemma jb_two : forall a b, a <> b -> just_before a b [a; b].
Proof.
  intros a b H t1 t2 E. destruct t1 as [|x t1]; [injection E; congruence|]. destruct t1 as [|y t1].
  - injection E as <- <-. exists []. reflexivity.
  - destruct t1; discriminate.
Qed.
Lemma jb_flat : forall a b A (g : A -> list event) l, (forall x, just_before a b (g x)) -> just_before a b (flat_map g l).
Proof. intros a b A g l H. induction l as [|x l IH]; [apply jb_none; intros []|]. cbn [flat_map]. apply jb_app; auto. Qed.
Lemma before_app : forall a b l1 l2, In a l1 -> ~ In b l1 -> before a b (l1 ++ l2).
Proof.
  intros a b l1 l2 I N t1 t2 E. destruct (app_split _ _ _ _ _ _ E) as [(r & E1)|(r & -> & E2)].
  - exfalso. apply N. rewrite E1. apply in_or_app. right. left. reflexivity.
  - apply in_or_app. left. exact I.
Qed.

Theorem C97_priors : forall f t, runs f -> postprc f = false -> decomp f = false -> m = gmodel \/ m = pmap \/ m = mmap -> run f = Ok t ->
  (forall k v s, In (Table k v s) t -> (v, s) = fit) /\
  (forall k c, just_before (Table k (fst fit) (snd fit)) (Sample (Line k) c) t) /\
  (forall k c, before Fit (Sample (Line k) c) t) /\
  (forall k v s, before Fit (Table k v s) t) /\
  before (Posterior Con) Fit t.
Proof.
  intros f t R Pp De Mm E. apply (run_inv f t R) in E. destruct E as [-> _].
  assert (Hc : has_con f = true) by (unfold has_con, runs_mc_con; rewrite Pp, De; destruct Mm as [->|[->| ->]]; reflexivity).
  assert (M : m <> nmap) by (destruct Mm as [->|[->| ->]]; discriminate).
  set (pre := [Settings; Data; Setup] ++ sampling Con (restart f) (post_con f) ++ [Fit; ConCurve]).
  assert (T : run_trace f = pre ++ driver_trace f (post_line f) fit).
  { unfold run_trace, pre. rewrite Hc. rewrite <- !app_assoc. destruct m; try reflexivity. congruence. }
  assert (Pre : forall k v s c, ~ In (Sample (Line k) c) pre /\ ~ In (Table k v s) pre /\ In Fit pre).
  { intros k v s c. unfold pre, sampling. destruct (post_con f); cbn; intuition discriminate. }
  rewrite T. repeat split.
  - intros k v s I. apply in_app_or in I. destruct I as [I|I]; [exfalso; exact (proj1 (proj2 (Pre k v s true)) I)|].
    unfold driver_trace in I. apply in_app_or in I. destruct I as [I|I].
    + apply in_flat_map in I. destruct I as (k' & _ & I). unfold number_trace, sampling in I.
      destruct fit as [v' s']. cbn [fst snd] in I.
      repeat (apply in_app_or in I; destruct I as [I|I]).
      * destruct (load_prior f); cbn in I; intuition discriminate.
      * cbn in I. destruct I as [I|[]]. congruence.
      * destruct (para_name f); [destruct I|]. destruct (post_line f); cbn in I; intuition discriminate.
      * destruct (negb (para_name f) && negb (postsample f)); [|destruct I]. cbn [app In] in I.
        destruct I as [I|[I|I]]; try discriminate. match type of I with In _ (if ?b then _ else _) => destruct b end; cbn in I; intuition discriminate.
    + destruct (para_name f); cbn in I; intuition discriminate.
  - intros k c. apply jb_app; [apply jb_none; apply (Pre k (fst fit) (snd fit) c)|]. unfold driver_trace. apply jb_app.
    + apply jb_flat. intro k'. unfold number_trace. apply jb_app.
      { apply jb_none. destruct (load_prior f); cbn; intuition discriminate. }
      rewrite app_assoc. apply jb_app.
      * unfold sampling. destruct (para_name f), (post_line f); try (apply jb_none; cbn; intuition discriminate).
        destruct (Nat.eq_dec k k') as [->|Hk].
        -- change ([Table k' (fst fit) (snd fit)] ++ [Sample (Line k') (restart f)] ++ [Posterior (Line k')])
             with ([Table k' (fst fit) (snd fit); Sample (Line k') (restart f)] ++ [Posterior (Line k')]).
           apply jb_app; [|apply jb_none; cbn; intuition discriminate].
           destruct (bool_dec c (restart f)) as [->|Hr]; [apply jb_two; discriminate|]. apply jb_none. cbn. intuition congruence.
        -- apply jb_none. cbn. intuition congruence.
      * apply jb_none. destruct (negb (para_name f) && negb (postsample f)); [|intros []]. cbn [app In].
        intros [I|[I|I]]; try discriminate. match type of I with In _ (if ?b then _ else _) => destruct b end; cbn in I; intuition discriminate.
    + apply jb_none. destruct (para_name f); cbn; intuition discriminate.
  - intros k c. apply before_app; apply (Pre k (fst fit) (snd fit) c).
  - intros k v s. apply before_app; apply (Pre k v s true).
  - unfold pre. rewrite <- !app_assoc. rewrite (app_assoc [Settings; Data; Setup]). apply before_app.
    + unfold sampling. destruct (post_con f); cbn; auto 6.
    + unfold sampling. destruct (post_con f); cbn; intuition discriminate.
Qed.

(** *** Decomposition *)
Theorem C97_parts : forall f t k, runs f -> run f = Ok t ->
  (In k (parts t) <-> In k (asked m low diff) /\ decomp f = true /\ para_name f = false /\ postsample f = false /\ m <> vmap /\ (m = mmap \/ 1 < k)).
Proof.
  intros f t k R E. apply (run_inv f t R) in E. destruct E as [-> _].
  destruct (match m with nmap => true | _ => false end) eqn:Mn.
  - assert (Mm : m = nmap) by (destruct m; congruence). unfold run_trace, has_con, runs_mc_con, asked, sampling. rewrite Mm.
    split; [|intros (I & _); destruct I]. destruct (post_con f); intros [].
  - assert (M : m <> nmap) by (intro H; rewrite H in Mn; discriminate).
    unfold parts. rewrite on_trace by assumption.
    assert (Z : flat_map (fun e => match e with Parts k => [k] | _ => [] end) (if para_name f then [] else [Evidence (map (fun k => (k, logz k)) (asked m low diff))]) = []) by (destruct (para_name f); reflexivity).
    rewrite Z, app_nil_r. cbn [flat_map app].
    assert (C : flat_map (fun e => match e with Parts k => [k] | _ => [] end) (if has_con f then sampling Con (restart f) (post_con f) ++ [Fit; ConCurve] else []) = []).
    { unfold sampling. destruct (has_con f), (post_con f); reflexivity. }
    rewrite C. cbn [app].
    rewrite (fm_ext _ _ _ (fun k => if negb (para_name f) && negb (postsample f) && match m with vmap => false | mmap => decomp f | _ => (1 <? k) && decomp f end then [k] else [])).
    2:{ intro a. unfold number_trace, sampling. rewrite !fm_app.
        destruct (load_prior f), (para_name f), (postsample f), (post_line f); cbn [negb andb app flat_map]; rewrite ?fm_app; cbn [app flat_map]; try reflexivity;
        match goal with |- context [if ?b then _ else _] => destruct b end; reflexivity. }
    rewrite in_flat_map. split.
    + intros (a & Ia & I). destruct (para_name f), (postsample f); try (destruct I; fail).
      assert (X : match m with vmap => false | mmap => decomp f | _ => (1 <? a) && decomp f end = true /\ a = k).
      { cbn [negb andb] in I. match type of I with In _ (if ?b then _ else _) => destruct b end; [|destruct I]. destruct I as [->|[]]. auto. }
      destruct X as [X ->]. destruct m; try discriminate; try congruence.
      * apply andb_true_iff in X. destruct X as [X D]. apply Nat.ltb_lt in X. repeat split; auto; discriminate.
      * apply andb_true_iff in X. destruct X as [X D]. apply Nat.ltb_lt in X. repeat split; auto; discriminate.
      * repeat split; auto; discriminate.
    + intros (I & D & N & S & V & K). exists k. split; [exact I|]. rewrite D, N, S. cbn [negb andb].
      replace (match m with vmap => false | mmap => true | _ => (1 <? k) && true end) with true; [left; reflexivity|].
      symmetry. rewrite andb_true_r. destruct m; try congruence; try (apply Nat.ltb_lt; destruct K as [K|K]; [discriminate|exact K]); reflexivity.
Qed.

(** *** The null mode *)
(** The continuum alone: sampled unless -p or -r is given; no tables, no evidence file. *)
Theorem C97_null : forall f t, runs f -> m = nmap -> run f = Ok t ->
  t = [Settings; Data; Setup] ++ (if postprc f || restart f then [] else [Sample Con false]) ++ [Posterior Con; Fit; ConCurve].
Proof.
  intros f t R M E. apply (run_inv f t R) in E. destruct E as [-> _]. unfold run_trace, has_con, runs_mc_con, sampling, post_con. rewrite M.
  destruct (restart f), (postprc f); reflexivity.
Qed.

(** *** When a run comes to its end *)
(** The self-test is done exactly if -e is given, and then it is all that is done, with or
    without -v; with -v alone nothing is done, and only then. *)
Theorem C97_examine : forall f t, run f = Ok t -> (In Examine t <-> examine f = true) /\ (In Examine t -> t = [Examine]) /\ (t = [] <-> endrun f = true /\ examine f = false).
Proof.
  intros f t. destruct (examine f) eqn:X; [|destruct (endrun f) eqn:V].
  - unfold main_run. rewrite X. intros [= <-]. split; [cbn; tauto|]. split; [reflexivity|]. split; [discriminate|intros [_ [=]]].
  - unfold main_run. rewrite X, V. intros [= <-]. cbn. split; [split; [tauto|discriminate]|]. split; tauto.
  - rewrite (run_nf f (conj X V)). destruct (run_ok f); [|discriminate]. intros [= <-].
    assert (N : ~ In Examine (run_trace f)).
    { unfold run_trace, driver_trace, number_trace, sampling. rewrite !in_app_iff, ?in_flat_map. intros H.
      repeat match goal with
      | H : _ \/ _ |- _ => destruct H
      | H : In _ (_ :: _) |- _ => destruct H
      | H : In _ [] |- _ => destruct H
      | H : In _ (_ ++ _) |- _ => apply in_app_iff in H
      | H : In _ (flat_map _ _) |- _ => apply in_flat_map in H
      | H : exists _, _ |- _ => destruct H
      | H : _ /\ _ |- _ => destruct H
      | H : In Examine (if ?b then _ else _) |- _ => destruct b
      | H : In Examine (match ?b with nmap => _ | _ => _ end) |- _ => destruct b
      end; try discriminate. }
    split; [split; [intros H; destruct (N H)|discriminate]|]. split; [intros H; destruct (N H)|]. split; [unfold run_trace; discriminate|intros [[=] _]].
Qed.
(** A fresh run needs the two directories; a run that continues needs the earlier
    continuum samples and a snapshot for every number of components; post-processing
    needs the earlier samples of every number.  Otherwise the run stops. *)
Theorem C97_ends : forall f, runs f -> (decomp f = true -> postprc f = true) -> m <> nmap -> data_dir = true -> param_dir = true -> load_prior f = false -> para_name f = false ->
  ((postprc f = true -> forall k, In k (asked m low diff) -> kept (Line k) = true) /\
   (postprc f = false -> restart f = true -> (m <> vmap -> kept Con = true) /\ forall k, In k (asked m low diff) -> snapshot (Line k) = true)
   <-> exists t, run f = Ok t) /\
  (run f = Exit \/ exists t, run f = Ok t).
Proof.
  intros f R D M Dd Pd L N. rewrite (run_nf f R). split.
  2:{ destruct (run_ok f); [right; eauto|left; reflexivity]. }
  assert (Hc : has_con f = negb (postprc f) && match m with vmap => false | _ => true end).
  { unfold has_con, runs_mc_con. destruct m; try congruence; destruct (postprc f), (decomp f); cbn; try reflexivity; specialize (D eq_refl); discriminate. }
  assert (Pl : post_line f = postprc f).
  { unfold post_line. rewrite Hc. destruct (postprc f), (match m with vmap => false | _ => true end), (restart f); reflexivity. }
  transitivity (run_ok f = true).
  2:{ destruct (run_ok f); split; try discriminate; eauto. intros (t & [=]). }
  unfold run_ok. rewrite Dd, Pd. cbn [andb]. rewrite andb_true_iff, forallb_forall. rewrite Pl, Hc. unfold number_ok, can, post_con. rewrite L, N. cbn [negb orb andb].
  destruct (postprc f); cbn [negb andb orb].
  - split; [intros [H _]; split; auto|intros [_ H]; split; [auto|discriminate]].
  - rewrite orb_false_r. destruct (restart f); cbn [negb orb].
    + split.
      * intros [_ H]. destruct (H eq_refl eq_refl) as [H1 H2]. split; [|exact H2].
        destruct m; try reflexivity; cbn [negb orb]; apply H1; discriminate.
      * intros [H1 H2]. split; [discriminate|]. intros _ _. split; [|exact H2]. intro V. destruct m; try congruence; cbn [negb orb] in H1; exact H1.
    + split; intros _; split; auto; try discriminate. rewrite orb_true_r. reflexivity.
Qed.
End Run.

(** ** The options *)
(** -d also asks for post-processing, so it never samples; this holds for every
    command line that main accepts. *)
Theorem C97_options : forall posix args s c, main_args posix args s = Ok c -> decomp (cflags c) = true -> postprc (cflags c) = true.
Proof.
  intros posix args s c E.
  assert (Sw : forall f o a f', main_switch f o a = Ok f' -> (decomp f = true -> postprc f = true) -> decomp f' = true -> postprc f' = true).
  { intros f o a f' H I. unfold main_switch in H.
    repeat (match type of H with (if ?b then _ else _) = _ => destruct b end; [first [injection H as <-; cbn; auto; fail|idtac]|]).
    - destruct (deref a) as [x| | |]; try discriminate. cbn [bind] in H. destruct (strcpy _ x) as [y| | |]; try discriminate. injection H as <-. exact I.
    - destruct (deref a) as [x| | |]; discriminate.
    - injection H as <-. exact I. }
  assert (Lp : forall fuel f st r, opt_loop posix (List.length args) main_options main_switch fuel f st = Ok r -> (decomp f = true -> postprc f = true) -> decomp (fst r) = true -> postprc (fst r) = true).
  { induction fuel as [|fuel IH]; intros f st r H I; [discriminate|]. cbn [opt_loop] in H.
    destruct (my_getopt posix (List.length args) main_options st) as [[o st']| | |]; try discriminate. cbn [bind fst snd] in H.
    destruct o as [o|]; [|injection H as <-; exact I].
    destruct (main_switch f o (optarg st')) as [f'| | |] eqn:S; try discriminate. cbn [bind] in H.
    eapply IH; [exact H|]. eapply Sw; eassumption. }
  unfold main_args in E. destruct (opt_loop _ _ _ _ _ _ _) as [[f st]| | |] eqn:O; try discriminate. cbn [bind] in E.
  assert (C : cflags c = f).
  { destruct (optind st <? List.length args); [|discriminate].
    repeat match type of E with bind ?x _ = _ => destruct x as [?| | |]; try discriminate; cbn [bind] in E end. injection E as <-. reflexivity. }
  rewrite C. exact (Lp _ _ _ _ O (fun H => H)).
Qed.

(** ** Cases *)
Open Scope R_scope.
Definition some_fit : arr * arr := (fun i => match i with 1%nat => -4 | _ => 2 end, fun _ => / 10).
Definition ev (k : nat) : R := INR k.
Definition with_flags (p r d n s : bool) : flags := Flags p false r d false false n s None.
Definition nothing (_ : part) : bool := false.
Definition everything (_ : part) : bool := true.
Definition no_file (_ : nat) : bool := false.

(** One to two components: the whole run, then the decomposition from its samples. *)
Example C97_example :
  let T k := Table k (fst some_fit) (snd some_fit) in
  main_run nothing nothing no_file true true some_fit ev gmodel 1 2 (with_flags false false false false false) =
    Ok [Settings; Data; Setup; Sample Con false; Posterior Con; Fit; ConCurve;
        T 1%nat; Sample (Line 1) false; Posterior (Line 1); Summary 1; Curves 1;
        T 2%nat; Sample (Line 2) false; Posterior (Line 2); Summary 2; Curves 2; Evidence [(1%nat, 1); (2%nat, 1 + 1)]] /\
  main_run nothing everything no_file true true some_fit ev gmodel 1 2 (with_flags true false true false false) =
    Ok [Settings; Data; Setup; Table 1 (fst zeros) (snd zeros); Posterior (Line 1); Summary 1; Curves 1;
        Table 2 (fst zeros) (snd zeros); Posterior (Line 2); Summary 2; Curves 2; Parts 2; Evidence [(1%nat, 1); (2%nat, 1 + 1)]] /\
  main_run everything everything no_file true true some_fit ev gmodel 1 1 (with_flags false true false false false) =
    Ok [Settings; Data; Setup; Posterior Con; Fit; ConCurve; T 1%nat; Sample (Line 1) true; Posterior (Line 1); Summary 1; Curves 1; Evidence [(1%nat, 1)]] /\
  main_run nothing nothing no_file true true some_fit ev gmodel 1 1 (with_flags false true false false false) = Exit /\
  main_run nothing nothing no_file true true some_fit ev gmodel 1 1 (with_flags false false false true false) =
    Ok [Settings; Data; Setup; Sample Con false; Posterior Con; Fit; ConCurve; T 1%nat].
Proof. repeat split. Qed.

(** ** What does not hold *)
(** A run with -r does not always go on sampling: the null mode only post-processes
    the samples it has. *)
Theorem C97_null_refuted : exists f t, runs f /\ restart f = true /\ postprc f = false /\
  main_run everything everything no_file true true some_fit ev nmap 0 1 f = Ok t /\ samples t = [].
Proof. exists (with_flags false true false false false). eexists. repeat split. Qed.

(** The virtual mode takes -d and leaves no decomposition. *)
Theorem C97_virtual_refuted : exists f t, runs f /\ decomp f = true /\ In 2%nat (asked vmap 1 2) /\
  main_run everything everything no_file true true some_fit ev vmap 1 2 f = Ok t /\ parts t = [].
Proof. exists (with_flags true false true false false). eexists. repeat split. cbn. auto. Qed.

(** The parameter table that a run leaves is not always one that another run can
    load: -p and -d do not fit the continuum and yet write the table anew, with
    nothing but 1 for the amplitude and the time scale of the variability (their
    logarithms are 0).  A run that loads such a table after its own continuum fit
    stops. *)
Lemma table_zero : forall m lowest sets S q L widths lags ratios upper ng uniform uniform_var r0 g i c,
  data_ok lowest sets S q -> 1 <= 2 * PI * S -> m <> Virtual ->
  prior_ranges sets m lowest L widths lags ratios upper ng uniform uniform_var (fst zeros) (snd zeros) r0 = Ok g ->
  (i < n_sets sets)%nat -> (c < 3)%nat -> lo g (idx_con_pm uniform_var i + c)%nat = 0 /\ hi g (idx_con_pm uniform_var i + c)%nat = 0.
Proof.
  intros m lowest sets S q L widths lags ratios upper ng uniform uniform_var r0 g i c D Sp M E Hi Hc.
  pose proof (C96_variability m lowest sets S q L widths lags ratios upper ng uniform uniform_var (fst zeros) (snd zeros) r0 g i c D E Hi Hc) as V.
  cbv zeta in V. assert (X : exp (lo g (idx_con_pm uniform_var i + c)%nat) = Rmax (exp (0 - 5 * 0)) (bound_low c) /\ exp (hi g (idx_con_pm uniform_var i + c)%nat) = Rmin (exp (0 + 5 * 0)) (bound_upp S c)).
  { destruct m; [exact V|exact V|congruence]. }
  destruct X as [X1 X2]. rewrite Rmult_0_r, Rminus_0_r, exp_0 in X1. rewrite Rmult_0_r, Rplus_0_r, exp_0 in X2.
  assert (B : bound_low c <= 1 <= bound_upp S c).
  { destruct c as [|[|[|c]]]; cbn [bound_low bound_upp]; [lra| |lra|lia]. split; [|lra]. rewrite <- Rinv_1. apply Rinv_le_contravar; lra. }
  rewrite Rmax_left in X1 by lra. rewrite Rmin_left in X2 by lra. rewrite <- exp_0 in X1, X2. split; apply exp_inv; assumption.
Qed.
Definition some_limits : limits := Limits 0 20 None None false 0.
Theorem C97_table_refuted : exists f t v s g, runs f /\ decomp f = true /\
  main_run nothing everything no_file true true some_fit ev gmodel 2 1 f = Ok t /\ In (Table 2 v s) t /\
  data_ok (-1000) two_curves 50 20 /\
  prior_ranges two_curves General (-1000) some_limits None (fun _ => (0, 0)) (fun _ => (0, 0)) 2 2 0 false v s (Ranges (fun _ => 0) (fun _ => 0)) = Ok g /\
  (forall c, (c < 3)%nat -> lo g c = 0 /\ hi g c = 0) /\
  set_drw_par_range_load 1 (fst some_fit) (snd some_fit) (lo g) (hi g) = Exit.
Proof.
  destruct (C96_run General (-1000) two_curves 50 20 some_limits None (fun _ => (0, 0)) (fun _ => (0, 0)) 2 2 0 false (fst zeros) (snd zeros) (Ranges (fun _ => 0) (fun _ => 0)) two_curves_data) as [[H _] _].
  destruct H as (g & E); [discriminate|].
  assert (P3 : 1 <= 2 * PI * 50) by (assert (X := PI_RGT_0); assert (Y := PI2_1); lra).
  assert (Z : forall c, (c < 3)%nat -> lo g c = 0 /\ hi g c = 0).
  { intros c Hc. apply (table_zero General (-1000) two_curves 50 20 some_limits None (fun _ => (0, 0)) (fun _ => (0, 0)) 2 2 0 false (Ranges (fun _ => 0) (fun _ => 0)) g 0 c two_curves_data P3 ltac:(discriminate) E);
    [cbn; lia|exact Hc]. }
  exists (with_flags true false true false false). eexists. exists (fst zeros), (snd zeros), g.
  split; [split; reflexivity|]. split; [reflexivity|]. split; [reflexivity|]. split; [cbn; auto 6|]. split; [exact two_curves_data|].
  split; [exact E|]. split; [exact Z|].
  destruct (Z 1%nat) as [Z1 _]; [lia|]. unfold set_drw_par_range_load. cbn [drw_sets Nat.add]. unfold drw_one at 1. cbn [fst snd some_fit].
  destruct (Rlt_dec 0 (/ 10)); [|exfalso; lra]. destruct (Rlt_dec _ (lo g 1%nat)); [reflexivity|exfalso; lra].
Qed.

Print Assumptions C97_numbers.
Print Assumptions C97_sampling.
Print Assumptions C97_priors.
Print Assumptions C97_parts.
Print Assumptions C97_ends.
Print Assumptions C97_null.
Print Assumptions C97_options.
Print Assumptions C97_examine.
Print Assumptions C97_null_refuted.
Print Assumptions C97_virtual_refuted.
Print Assumptions C97_table_refuted.
