(** read_parset, src/read.c:36-529: the main parameter file. *)
From Coq Require Import ZArith QArith List Bool Lia Ascii String.
From Verif Require Import CPrelude TagModel.
Import ListNotations.
Open Scope Z_scope.

(** pardict, src/read.c:53-242.  NumGaussianLow/Upp (old names) point to the
    same fields as NumCompLow/Upp. *)
Definition par_dict : list entry :=
  [ mkentry (w_of "FileDir") STRING 0;
    mkentry (w_of "DataFile") STRING 1;
    mkentry (w_of "TypeModel") INT 2;
    mkentry (w_of "MaxNumberSaves") INT 3;
    mkentry (w_of "FlagUniformVarParams") INT 4;
    mkentry (w_of "FlagUniformTranFuns") INT 5;
    mkentry (w_of "FlagLongtermTrend") INT 6;
    mkentry (w_of "FlagNegativeResp") INT 7;
    mkentry (w_of "LagLimitLow") DOUBLE 8;
    mkentry (w_of "LagLimitUpp") DOUBLE 9;
    mkentry (w_of "WidthLimitLow") DOUBLE 10;
    mkentry (w_of "WidthLimitUpp") DOUBLE 11;
    mkentry (w_of "NumGaussianLow") INT 12;
    mkentry (w_of "NumGaussianUpp") INT 13;
    mkentry (w_of "NumCompLow") INT 12;
    mkentry (w_of "NumCompUpp") INT 13;
    mkentry (w_of "FlagConSysErr") INT 14;
    mkentry (w_of "FlagLineSysErr") INT 15;
    mkentry (w_of "TypeLagPrior") INT 16;
    mkentry (w_of "StrLagPrior") STRING 17;
    mkentry (w_of "StrWidthPrior") STRING 18;
    mkentry (w_of "StrRatioPrior") STRING 19;
    mkentry (w_of "TypeTF") INT 20;
    mkentry (w_of "StrTypeTFMix") STRING 21;
    mkentry (w_of "FlagLagPositivity") INT 22;
    mkentry (w_of "FlagGap") INT 23;
    mkentry (w_of "StrGapPrior") STRING 24;
    mkentry (w_of "NumberParticles") INT 25;
    mkentry (w_of "NewLevelIntervalFactor") DOUBLE 26;
    mkentry (w_of "SaveIntervalFactor") DOUBLE 27;
    mkentry (w_of "ThreadStepsFactor") DOUBLE 28;
    mkentry (w_of "MaxNumberLevels") INT 29;
    mkentry (w_of "BacktrackingLength") DOUBLE 30;
    mkentry (w_of "StrengthEqualPush") DOUBLE 31;
    mkentry (w_of "PTol") DOUBLE 32;
    mkentry (w_of "NumPointRec") INT 33;
    mkentry (w_of "TimeRecLowExt") DOUBLE 34;
    mkentry (w_of "TimeRecUppExt") DOUBLE 35 ]%nat.

(** DBL_MAX = 2^1024 - 2^971. *)
Definition DMAX : num := Num (inject_Z (2^1024 - 2^971)).

(** Defaults, src/read.c:257-292; data_file, model and the two FlagSysErr have
    none and keep the zero of the global variable parset. *)
Definition par_dflt : list val :=
  [ VS []; VS []; VI 0; VI 2000; VI 0; VI 0; VI 0; VI 0; VD (Num 0); VD (Num (-1));
    VD DMAX; VD DMAX; VI 1; VI 1; VI 0; VI 0; VI 0; VS []; VS []; VS []; VI 0; VS [];
    VI 0; VI 0; VS []; VI 1; VD (Num 1); VD (Num 1); VD (Num 1); VI 0; VD (Num 10);
    VD (Num 100); VD (Num (1#10)); VI 200; VD (Num 0); VD (Num 0) ].

Definition par_comment (c : ascii) : bool := if ascii_dec c "#" then true else false.

(** IEEE [<] and [<=]. *)
Definition nlt (a b : num) : bool :=
  match a, b with
  | Num p, Num q => negb (Qle_bool q p)
  | NumInf true, Num _ | Num _, NumInf false | NumInf true, NumInf false => true
  | _, _ => false
  end.
Definition nle (a b : num) : bool :=
  match a, b with
  | Num p, Num q => Qle_bool p q
  | NumInf true, Num _ | Num _, NumInf false | NumInf true, NumInf false => true
  | NumInf x, NumInf y => Bool.eqb x y
  | _, _ => false
  end.

(** The values the checks read or change.  Model numbers: gmodel 0, pmap 1,
    vmap 2, mmap 3, nmap 4 (src/allvars.h, enum). *)
Record parset := mkparset
  { p_model : Z; p_lag_low : num; p_lag_upp : num; p_wid_low : num; p_wid_upp : num;
    p_low : Z; p_upp : Z; p_prior : Z; p_str_lag : word; p_nd_rec : Z; p_trend : Z;
    p_pos : Z; p_neg : Z; p_tf : Z; p_unif_tf : Z; p_mix : word }.

(** C character comparison str[i] < '0' || str[i] > '3'. *)
Definition mix_char_bad (c : ascii) : bool :=
  ((N_of_ascii c <? 48) || (51 <? N_of_ascii c))%N.

(** src/read.c:343-524; [load_prior] is flag_load_prior. *)
Definition par_check (load_prior : bool) (p : parset) : outcome parset :=
  if (p_model p <? 0) || (4 <? p_model p) then Exit else
  if p_model p =? 4 then Ok p else
  if (p_model p =? 0) && nle (p_lag_upp p) (p_lag_low p) then Exit else
  let wlow_set := nlt (p_wid_low p) DMAX in
  let wupp_set := nlt (p_wid_upp p) DMAX in
  if wlow_set && nle (p_wid_low p) (Num 0) then Exit else
  if wupp_set && nle (p_wid_upp p) (Num 0) then Exit else
  if wupp_set && wlow_set && nle (p_wid_upp p) (p_wid_low p) then Exit else
  let pm := p_model p =? 1 in
  let low := if pm && (p_low p <? 2) then 2 else p_low p in
  let upp := if pm && (p_upp p <? 2) then 2 else p_upp p in
  let prior := if pm then 4 else p_prior p in
  if pm && match p_str_lag p with [] => true | _ => false end then Exit else
  if low <=? 0 then Exit else
  if upp <=? 0 then Exit else
  if upp <? low then Exit else
  let diff := upp - low + 1 in
  let prior := if upp =? 1 then 0 else prior in
  if load_prior && (1 <? diff) then Exit else
  if p_nd_rec p <? 0 then Exit else
  if (prior <? 0) || (4 <? prior) then Exit else
  if (2 <=? prior) && (prior <=? 3) && (low <? 3) then Exit else
  if p_trend p <? 0 then Exit else
  if 2 <? p_trend p then Exit else
  if negb (p_pos p =? 0) && nlt (p_lag_low p) (Num 0) then Exit else
  if (p_neg p <? 0) && (1 <? p_neg p) then Exit else
  if (p_neg p =? 1) && negb (p_model p =? 0) then Exit else
  let prior := if (p_neg p =? 1) && (prior =? 0) then 1 else prior in
  if (p_pos p =? 1) && (1 <? p_tf p) && (p_tf p <=? 3) then Exit else
  if negb (p_unif_tf p =? 0) && negb (p_model p =? 0) then Exit else
  if p_model p =? 3 then
    match p_mix p with
    | [] => Exit
    | _ =>
      let len := Z.of_nat (List.length (p_mix p)) in
      if len <? 2 then Exit else
      if existsb mix_char_bad (p_mix p) then Exit else
      Ok (mkparset (p_model p) (p_lag_low p) (p_lag_upp p) (p_wid_low p) (p_wid_upp p)
            len len prior (p_str_lag p) (p_nd_rec p) (p_trend p) 0 (p_neg p) (p_tf p) (p_unif_tf p) (p_mix p))
    end
  else
    Ok (mkparset (p_model p) (p_lag_low p) (p_lag_upp p) (p_wid_low p) (p_wid_upp p)
          low upp prior (p_str_lag p) (p_nd_rec p) (p_trend p) (p_pos p) (p_neg p) (p_tf p) (p_unif_tf p) (p_mix p)).

Definition par_fields (fs : list val) : outcome parset :=
  let gi n := (v <- get fs n ;; as_int v) in
  let gd n := (v <- get fs n ;; as_num v) in
  let gs n := (v <- get fs n ;; as_str v) in
  model <- gi 2%nat ;; ll <- gd 8%nat ;; lu <- gd 9%nat ;; wl <- gd 10%nat ;; wu <- gd 11%nat ;;
  low <- gi 12%nat ;; upp <- gi 13%nat ;; prior <- gi 16%nat ;; sl <- gs 17%nat ;;
  nd <- gi 33%nat ;; trend <- gi 6%nat ;; pos <- gi 22%nat ;; neg <- gi 7%nat ;;
  tf <- gi 20%nat ;; utf <- gi 5%nat ;; mix <- gs 21%nat ;;
  Ok (mkparset model ll lu wl wu low upp prior sl nd trend pos neg tf utf mix).

Definition read_parset (atof : word -> num) (load_prior : bool) (f : list ascii) : outcome parset :=
  st <- read_file atof par_comment par_dict f par_dflt ;;
  p <- par_fields (fields st) ;;
  par_check load_prior p.
