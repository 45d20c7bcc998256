(** Numerical tables, generated from the Rust source by copying the decimal literals
    (src/eos/dispersion.rs 8-61, src/eos/polar.rs 9-78, src/eos/qspr.rs 8-64). *)
From Coq Require Import ZArith QArith List.
Import ListNotations.
Local Open Scope Q_scope.

(** src/eos/dispersion.rs 8-16 *)
Definition A0 : list Q :=
  [ 0.91056314451539;
    0.63612814494991;
    2.68613478913903;
    -26.5473624914884;
    97.7592087835073;
    -159.591540865600;
    91.2977740839123 ].

(** src/eos/dispersion.rs 17-25 *)
Definition A1 : list Q :=
  [ -0.30840169182720;
    0.18605311591713;
    -2.50300472586548;
    21.4197936296668;
    -65.2558853303492;
    83.3186804808856;
    -33.7469229297323 ].

(** src/eos/dispersion.rs 26-34 *)
Definition A2 : list Q :=
  [ -0.09061483509767;
    0.45278428063920;
    0.59627007280101;
    -1.72418291311787;
    -4.13021125311661;
    13.7766318697211;
    -8.67284703679646 ].

(** src/eos/dispersion.rs 35-43 *)
Definition B0 : list Q :=
  [ 0.72409469413165;
    2.23827918609380;
    -4.00258494846342;
    -21.00357681484648;
    26.8556413626615;
    206.5513384066188;
    -355.60235612207947 ].

(** src/eos/dispersion.rs 44-52 *)
Definition B1 : list Q :=
  [ -0.57554980753450;
    0.69950955214436;
    3.89256733895307;
    -17.21547164777212;
    192.6722644652495;
    -161.8264616487648;
    -165.2076934555607 ].

(** src/eos/dispersion.rs 53-61 *)
Definition B2 : list Q :=
  [ 0.09768831158356;
    -0.25575749816100;
    -9.15585615297321;
    20.64207597439724;
    -38.80443005206285;
    93.6267740770146;
    -29.66690558514725 ].

(** src/eos/polar.rs 12-18 *)
Definition AD : list (list Q) :=
  [ [0.30435038064; 0.95346405973; -1.16100802773];
    [-0.13585877707; -1.83963831920; 4.52586067320];
    [1.44933285154; 2.01311801180; 0.97512223853];
    [0.35569769252; -7.37249576667; -12.2810377713];
    [-2.06533084541; 8.23741345333; 5.93975747420] ].

(** src/eos/polar.rs 20-26 *)
Definition BD : list (list Q) :=
  [ [0.21879385627; -0.58731641193; 3.48695755800];
    [-1.18964307357; 1.24891317047; -14.9159739347];
    [1.16268885692; -0.50852797392; 15.3720218600];
    [0.0; 0.0; 0.0];
    [0.0; 0.0; 0.0] ].

(** src/eos/polar.rs 28-33 *)
Definition CD : list (list Q) :=
  [ [-0.06467735252; -0.95208758351; -0.62609792333];
    [0.19758818347; 2.99242575222; 1.29246858189];
    [-0.80875619458; -2.38026356489; 1.65427830900];
    [0.69028490492; -0.27012609786; -3.43967436378] ].

(** src/eos/polar.rs 36-42 *)
Definition AQ : list (list Q) :=
  [ [1.237830788; 1.285410878; 1.794295401];
    [2.435503144; -11.46561451; 0.769510293];
    [1.633090469; 22.08689285; 7.264792255];
    [-1.611815241; 7.46913832; 94.48669892];
    [6.977118504; -17.19777208; -77.1484579] ].

(** src/eos/polar.rs 44-50 *)
Definition BQ : list (list Q) :=
  [ [0.454271755; -0.813734006; 6.868267516];
    [-4.501626435; 10.06402986; -5.173223765];
    [3.585886783; -10.87663092; -17.2402066];
    [0.0; 0.0; 0.0];
    [0.0; 0.0; 0.0] ].

(** src/eos/polar.rs 52-57 *)
Definition CQ : list (list Q) :=
  [ [-0.500043713; 2.000209381; 3.135827145];
    [6.531869153; -6.78386584; 7.247588801];
    [-16.01477983; 20.38324603; 3.075947834];
    [14.42597018; -10.89598394; 0.0] ].

(** src/eos/polar.rs 60-65 *)
Definition ADQ : list (list Q) :=
  [ [0.697094963; -0.673459279; 0.670340770];
    [-0.633554144; -1.425899106; -4.338471826];
    [2.945509028; 4.19441392; 7.234168360];
    [-1.467027314; 1.0266216; 0.0] ].

(** src/eos/polar.rs 67-72 *)
Definition BDQ : list (list Q) :=
  [ [-0.484038322; 0.67651011; -1.167560146];
    [1.970405465; -3.013867512; 2.13488432];
    [-2.118572671; 0.46742656; 0.0];
    [0.0; 0.0; 0.0] ].

(** src/eos/polar.rs 74-78 *)
Definition CDQ : list (list Q) :=
  [ [0.795009692; -2.099579397];
    [3.386863396; -5.941376392];
    [0.475106328; -0.178820384] ].

(** src/eos/polar.rs 9 *)
Definition ALPHA : Q := 1.1937350.

(** src/eos/qspr.rs 17-24 *)
Definition NA_NP_300 : list Q :=
  [ -5763.04893;
    1232.30607;
    -239.3513996;
    0.0;
    0.0;
    -15174.28321 ].

(** src/eos/qspr.rs 25-32 *)
Definition NA_NP_400 : list Q :=
  [ -8171.26676935062;
    1498.01217504596;
    -315.515836223387;
    0.0;
    0.0;
    -19389.5468655708 ].

(** src/eos/qspr.rs 33-40 *)
Definition NA_P_300 : list Q :=
  [ 5177.19095226181;
    919.565206504576;
    -108.829105648889;
    0.0;
    -3.93917830677682;
    -13504.5671858292 ].

(** src/eos/qspr.rs 41-48 *)
Definition NA_P_400 : list Q :=
  [ 10656.1018362315;
    1146.10782703748;
    -131.023645998081;
    0.0;
    -9.93789225413177;
    -24430.12952497 ].

(** src/eos/qspr.rs 49-56 *)
Definition AP_300 : list Q :=
  [ 3600.32322462175;
    1006.20461224949;
    -151.688378113974;
    7.81876773647109e-07;
    8.01001754473385;
    -8959.37140957179 ].

(** src/eos/qspr.rs 57-64 *)
Definition AP_400 : list Q :=
  [ 7248.0697641199;
    1267.44346171358;
    -208.738557800023;
    0.000170238690157906;
    -6.7841792685616;
    -12669.4196622924 ].
