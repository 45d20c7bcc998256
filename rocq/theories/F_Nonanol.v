(** Numerical enclosure of the Newton iterates of the cross-association routine for 1-nonanol and
    water (three sites) at 300 K and a packing fraction of 0.474, started at 0.2. *)
From Coq Require Import ZArith QArith Reals Lra Lia String List Bool.
From Interval Require Import Tactic.
From Verif Require Import Num RNum RSum Tables M_Params M_Eos Spec F_MassAction F_Newton F_Gauss F_NewtonR F_Cross F_Track.
Import ListNotations.
Local Open Scope R_scope.
Set Bullet Behavior "Strict Subproofs".

(* densities times association strengths, and the iterates *)
Definition strengths (b00 b01 b10 b11 : R) : Prop :=
  29.829240022614537681728441111338343303746595904365720461828788 <= b00 <= 29.829240022614537681728441111338343303746595904365720462028788 /\
  27.915682115322639531080411260846865422902287837852870149718209 <= b01 <= 27.915682115322639531080411260846865422902287837852870149918209 /\
  46.526136858871065885134018768078109038170479729754783582930348 <= b10 <= 46.526136858871065885134018768078109038170479729754783583130348 /\
  45.742512056117943247345016166042174541324329871338083959373495 <= b11 <= 45.742512056117943247345016166042174541324329871338083959573495.
Definition iterate (k : nat) (x0 x1 x2 x3 : R) : Prop :=
  match k with
  | 1%nat => 0.276398775239107756136202140041319476276578589758516157234098 <= x0 <= 0.276398775239107756136202140041319476276578589758536157234098 /\
    0.254408419864061622906778123852694343338071792139454233496108 <= x1 <= 0.254408419864061622906778123852694343338071792139474233496108 /\
    (-0.003492296497395576848373909424628008636445050080465270782864) <= x2 <= (-0.003492296497395576848373909424628008636445050080445270782864) /\
    (-0.024698040711037865878817003184698838468817015989445819646181) <= x3 <= (-0.024698040711037865878817003184698838468817015989425819646181)
  | 2%nat => 5.079899028941405835894101411003085866980124305075722653506601 <= x0 <= 5.079899028941405835894101411003085866980124505075722653506601 /\
    (-3.741395583361240477662977598460537197868960954736667287037248) <= x1 <= (-3.741395583361240477662977598460537197868960754736667287037248) /\
    0.030760393220459239837671867625259979423922855139524719145668 <= x2 <= 0.030760393220459239837671867625259979423923055139524719145668 /\
    (-0.067560107187569961898572624624697916477586059579671350139607) <= x3 <= (-0.067560107187569961898572624624697916477585859579671350139607)
  | 3%nat => 5.019279662290300343844104752879594009882656808875860487868679 <= x0 <= 5.019279662290300343844104752879596009882656808875860487868679 /\
    (-3.702357351668178737884177933440727611470321517199938333927224) <= x1 <= (-3.702357351668178737884177933440725611470321517199938333927224) /\
    (-0.017541133509807416462293352147628755053116076909577332013975) <= x2 <= (-0.017541133509807416462293352147626755053116076909577332013975) /\
    (-0.010013377002844541924359025169416281381021558090813634716690) <= x3 <= (-0.010013377002844541924359025169414281381021558090813634716690)
  | 4%nat => 5.019026040384318612287892897100408577661655791140844899588265 <= x0 <= 5.019026040384318612287892917100408577661655791140844899588265 /\
    (-3.702205876581312868296596075803961791541172772437703625604088) <= x1 <= (-3.702205876581312868296596055803961791541172772437703625604088) /\
    (-0.017861771505239112979776414789181181652411432849325496118519) <= x2 <= (-0.017861771505239112979776394789181181652411432849325496118519) /\
    (-0.009598733346696194480409955125273984225566838225123258363537) <= x3 <= (-0.009598733346696194480409935125273984225566838225123258363537)
  | 5%nat => 5.019026133502940645298705487743466532255295326783225363039128 <= x0 <= 5.019026133502940645318705487743466532255295326783225363039128 /\
    (-3.702205953807474603968762769180394632481143252979922081484563) <= x1 <= (-3.702205953807474603948762769180394632481143252979922081484563) /\
    (-0.017861776122813526520301986979790737725261316517384360213882) <= x2 <= (-0.017861776122813526500301986979790737725261316517384360213882) /\
    (-0.009598724905358921562513080488693814994692100458827957547441) <= x3 <= (-0.009598724905358921542513080488693814994692100458827957547441)
  | 6%nat => 5.019026133502932811929170024234439993527077249753641934258474 <= x0 <= 5.019026133502952811929170024234439993527077249753641934258474 /\
    (-3.702205953807486402301005446109364090161644261740086325303232) <= x1 <= (-3.702205953807466402301005446109364090161644261740086325303232) /\
    (-0.017861776122823388576379187967673959589783740368620450801783) <= x2 <= (-0.017861776122803388576379187967673959589783740368620450801783) /\
    (-0.009598724905369137092762205215204925128520206609735342172701) <= x3 <= (-0.009598724905349137092762205215204925128520206609735342172701)
  | _ => x0 = 0.2 /\ x1 = 0.2 /\ x2 = 0.2 /\ x3 = 0.2
  end.

Ltac enclose := unfold y0, y1, y2, y3, e0_, e1_, g2, g3, det, m22, m23, m32, m33, k0, k1, err2, Q0, Q1, Q2, Q3;
  interval with (i_prec 220).
Ltac enclose_nz := first [apply Rgt_not_eq; enclose | apply Rlt_not_eq; enclose].
Ltac enclose_all :=
  split; [enclose_nz | ]; split; [enclose_nz | ]; split; [enclose_nz | ]; split; [enclose | ];
  cbn [iterate]; split; [split; enclose | ]; split; [split; enclose | ]; split; split; enclose.

Section Steps.
  Variables (b00 b01 b10 b11 : R).
  Hypothesis HB : strengths b00 b01 b10 b11.
  Notation at_ f x0 x1 x2 x3 := (f b00 b01 b10 b11 b00 (2 * b01) b10 (2 * b11) x0 x1 x2 x3).
  Definition tracked (k : nat) (x0 x1 x2 x3 : R) : Prop :=
    Q0 b00 b01 x2 x3 <> 0 /\ Q1 b10 b11 x2 x3 <> 0 /\ at_ det x0 x1 x2 x3 <> 0 /\
    (if (k <? 5)%nat then 1 / 10 ^ 9 <= sqrt (at_ err2 x0 x1 x2 x3) else sqrt (at_ err2 x0 x1 x2 x3) <= 1 / 10 ^ 11) /\
    iterate (S k) (at_ y0 x0 x1 x2 x3) (at_ y1 x0 x1 x2 x3) (at_ y2 x0 x1 x2 x3) (at_ y3 x0 x1 x2 x3).
  Lemma track0 x0 x1 x2 x3 : iterate 0 x0 x1 x2 x3 -> tracked 0 x0 x1 x2 x3.
  Proof.
    destruct HB as (B0 & B1 & B2 & B3). intros (-> & -> & -> & ->). unfold tracked. cbn [Nat.ltb Nat.leb].
    enclose_all.
  Qed.
  Lemma track1 x0 x1 x2 x3 : iterate 1 x0 x1 x2 x3 -> tracked 1 x0 x1 x2 x3.
  Proof.
    destruct HB as (B0 & B1 & B2 & B3). intros (X0 & X1 & X2 & X3). unfold tracked. cbn [Nat.ltb Nat.leb].
    enclose_all.
  Qed.
  Lemma track2 x0 x1 x2 x3 : iterate 2 x0 x1 x2 x3 -> tracked 2 x0 x1 x2 x3.
  Proof.
    destruct HB as (B0 & B1 & B2 & B3). intros (X0 & X1 & X2 & X3). unfold tracked. cbn [Nat.ltb Nat.leb].
    enclose_all.
  Qed.
  Lemma track3 x0 x1 x2 x3 : iterate 3 x0 x1 x2 x3 -> tracked 3 x0 x1 x2 x3.
  Proof.
    destruct HB as (B0 & B1 & B2 & B3). intros (X0 & X1 & X2 & X3). unfold tracked. cbn [Nat.ltb Nat.leb].
    enclose_all.
  Qed.
  Lemma track4 x0 x1 x2 x3 : iterate 4 x0 x1 x2 x3 -> tracked 4 x0 x1 x2 x3.
  Proof.
    destruct HB as (B0 & B1 & B2 & B3). intros (X0 & X1 & X2 & X3). unfold tracked. cbn [Nat.ltb Nat.leb].
    enclose_all.
  Qed.
  Lemma track5 x0 x1 x2 x3 : iterate 5 x0 x1 x2 x3 -> tracked 5 x0 x1 x2 x3.
  Proof.
    destruct HB as (B0 & B1 & B2 & B3). intros (X0 & X1 & X2 & X3). unfold tracked. cbn [Nat.ltb Nat.leb].
    enclose_all.
  Qed.
End Steps.
