(** Parameter files shipped with the crate (parameters/*.json), generated by copying names, molar
    weights and the key-value pairs of every "model_record", in the order of the files; decimal
    literals as written.  Other keys of an entry (identifiers except the name) are left out. *)
From Coq Require Import ZArith QArith List String.
Import ListNotations.
Local Open Scope string_scope.
Local Open Scope Q_scope.

(** JSON values that occur in a "model_record": numbers and arrays of numbers *)
Inductive qval := QN (x : Q) | QA (l : list Q).
(** entry of a file of substances or segments *)
Record entry := mkEntry { en_name : string; en_molarweight : Q; en_model : list (string * qval) }.
(** entry of the file of molecules made of segments *)
Record molecule := mkMolecule { mo_name : string; mo_segments : list string }.

(** parameters/gross2001.json *)
Definition gross2001 : list entry := [
  mkEntry "methane" 16.043 [("m", QN 1.0); ("sigma", QN 3.7039); ("epsilon_k", QN 150.03)];
  mkEntry "ethane" 30.07 [("m", QN 1.6069); ("sigma", QN 3.5206); ("epsilon_k", QN 191.42)];
  mkEntry "propane" 44.096 [("m", QN 2.002); ("sigma", QN 3.6184); ("epsilon_k", QN 208.11)];
  mkEntry "butane" 58.123 [("m", QN 2.3316); ("sigma", QN 3.7086); ("epsilon_k", QN 222.88)];
  mkEntry "pentane" 72.146 [("m", QN 2.6896); ("sigma", QN 3.7729); ("epsilon_k", QN 231.2)];
  mkEntry "hexane" 86.177 [("m", QN 3.0576); ("sigma", QN 3.7983); ("epsilon_k", QN 236.77)];
  mkEntry "heptane" 100.203 [("m", QN 3.4831); ("sigma", QN 3.8049); ("epsilon_k", QN 238.4)];
  mkEntry "octane" 114.231 [("m", QN 3.8176); ("sigma", QN 3.8373); ("epsilon_k", QN 242.78)];
  mkEntry "nonane" 128.25 [("m", QN 4.2079); ("sigma", QN 3.8448); ("epsilon_k", QN 244.51)];
  mkEntry "decane" 142.285 [("m", QN 4.6627); ("sigma", QN 3.8384); ("epsilon_k", QN 243.87)];
  mkEntry "undecane" 156.312 [("m", QN 4.9082); ("sigma", QN 3.8893); ("epsilon_k", QN 248.82)];
  mkEntry "dodecane" 170.338 [("m", QN 5.306); ("sigma", QN 3.8959); ("epsilon_k", QN 249.21)];
  mkEntry "tridecane" 184.365 [("m", QN 5.6877); ("sigma", QN 3.9143); ("epsilon_k", QN 249.78)];
  mkEntry "tetradecane" 198.392 [("m", QN 5.9002); ("sigma", QN 3.9396); ("epsilon_k", QN 254.21)];
  mkEntry "pentadecane" 212.419 [("m", QN 6.2855); ("sigma", QN 3.9531); ("epsilon_k", QN 254.14)];
  mkEntry "hexadecane" 226.446 [("m", QN 6.6485); ("sigma", QN 3.9552); ("epsilon_k", QN 254.7)];
  mkEntry "heptadecane" 240.473 [("m", QN 6.9809); ("sigma", QN 3.9675); ("epsilon_k", QN 255.65)];
  mkEntry "octadecane" 254.5 [("m", QN 7.3271); ("sigma", QN 3.9668); ("epsilon_k", QN 256.2)];
  mkEntry "nonadecane" 268.527 [("m", QN 7.7175); ("sigma", QN 3.9721); ("epsilon_k", QN 256.0)];
  mkEntry "eicosane" 282.553 [("m", QN 7.9849); ("sigma", QN 3.9869); ("epsilon_k", QN 257.75)];
  mkEntry "isobutane" 58.123 [("m", QN 2.2616); ("sigma", QN 3.7574); ("epsilon_k", QN 216.53)];
  mkEntry "isopentane" 72.15 [("m", QN 2.562); ("sigma", QN 3.8296); ("epsilon_k", QN 230.75)];
  mkEntry "neopentane" 72.15 [("m", QN 2.3543); ("sigma", QN 3.955); ("epsilon_k", QN 225.69)];
  mkEntry "2-methylpentane" 86.177 [("m", QN 2.9317); ("sigma", QN 3.8535); ("epsilon_k", QN 235.58)];
  mkEntry "2,2-dimethylbutane" 86.177 [("m", QN 2.6008); ("sigma", QN 4.0042); ("epsilon_k", QN 243.51)];
  mkEntry "2,3-dimethylbutane" 86.177 [("m", QN 2.6853); ("sigma", QN 3.9545); ("epsilon_k", QN 246.07)];
  mkEntry "3-methylpentane" 86.177 [("m", QN 2.8852); ("sigma", QN 3.8605); ("epsilon_k", QN 240.48)];
  mkEntry "2-methylhexane" 100.204 [("m", QN 3.3478); ("sigma", QN 3.8612); ("epsilon_k", QN 237.42)];
  mkEntry "cyclopentane" 70.13 [("m", QN 2.3655); ("sigma", QN 3.7114); ("epsilon_k", QN 265.83)];
  mkEntry "cyclohexane" 84.147 [("m", QN 2.5303); ("sigma", QN 3.8499); ("epsilon_k", QN 278.11)];
  mkEntry "methylcyclopentane" 84.156 [("m", QN 2.613); ("sigma", QN 3.8253); ("epsilon_k", QN 265.12)];
  mkEntry "methylcyclohexane" 98.182 [("m", QN 2.6637); ("sigma", QN 3.9993); ("epsilon_k", QN 282.33)];
  mkEntry "ethylcyclopentane" 98.182 [("m", QN 2.9062); ("sigma", QN 3.8873); ("epsilon_k", QN 270.5)];
  mkEntry "ethylcyclohexane" 112.215 [("m", QN 2.8256); ("sigma", QN 4.1039); ("epsilon_k", QN 294.04)];
  mkEntry "ethylene" 28.05 [("m", QN 1.593); ("sigma", QN 3.445); ("epsilon_k", QN 176.47)];
  mkEntry "propylene" 42.081 [("m", QN 1.9597); ("sigma", QN 3.5356); ("epsilon_k", QN 207.19)];
  mkEntry "1-butene" 56.107 [("m", QN 2.2864); ("sigma", QN 3.6431); ("epsilon_k", QN 222.0)];
  mkEntry "1-pentene" 70.134 [("m", QN 2.6006); ("sigma", QN 3.7399); ("epsilon_k", QN 231.99)];
  mkEntry "1-hexene" 84.616 [("m", QN 2.9853); ("sigma", QN 3.7753); ("epsilon_k", QN 236.81)];
  mkEntry "1-octene" 112.215 [("m", QN 3.7424); ("sigma", QN 3.8133); ("epsilon_k", QN 243.02)];
  mkEntry "cyclopentene" 68.114 [("m", QN 2.2934); ("sigma", QN 3.6668); ("epsilon_k", QN 267.76)];
  mkEntry "benzene" 78.114 [("m", QN 2.4653); ("sigma", QN 3.6478); ("epsilon_k", QN 287.35)];
  mkEntry "toluene" 92.141 [("m", QN 2.8149); ("sigma", QN 3.7169); ("epsilon_k", QN 285.69)];
  mkEntry "ethylbenzene" 106.167 [("m", QN 3.0799); ("sigma", QN 3.7974); ("epsilon_k", QN 287.35)];
  mkEntry "m-xylene" 106.167 [("m", QN 3.1861); ("sigma", QN 3.7563); ("epsilon_k", QN 283.98)];
  mkEntry "o-xylene" 106.167 [("m", QN 3.1362); ("sigma", QN 3.76); ("epsilon_k", QN 291.05)];
  mkEntry "p-xylene" 106.167 [("m", QN 3.1723); ("sigma", QN 3.7781); ("epsilon_k", QN 283.77)];
  mkEntry "n-propylbenzene" 120.194 [("m", QN 3.3438); ("sigma", QN 3.8438); ("epsilon_k", QN 288.13)];
  mkEntry "tetralin" 132.205 [("m", QN 3.3131); ("sigma", QN 3.875); ("epsilon_k", QN 325.07)];
  mkEntry "n-butylbenzene" 134.221 [("m", QN 3.7662); ("sigma", QN 3.8727); ("epsilon_k", QN 283.07)];
  mkEntry "biphenyl" 154.211 [("m", QN 3.8877); ("sigma", QN 3.8151); ("epsilon_k", QN 327.42)];
  mkEntry "carbon monoxide" 28.01 [("m", QN 1.3097); ("sigma", QN 3.2507); ("epsilon_k", QN 92.15)];
  mkEntry "nitrogen" 28.01 [("m", QN 1.2053); ("sigma", QN 3.313); ("epsilon_k", QN 90.96)];
  mkEntry "argon" 39.948 [("m", QN 0.9285); ("sigma", QN 3.4784); ("epsilon_k", QN 122.23)];
  mkEntry "carbon dioxide" 44.01 [("m", QN 2.0729); ("sigma", QN 2.7852); ("epsilon_k", QN 169.21)];
  mkEntry "sulfur dioxide" 64.065 [("m", QN 2.8611); ("sigma", QN 2.6826); ("epsilon_k", QN 205.35)];
  mkEntry "chlorine" 70.905 [("m", QN 1.5514); ("sigma", QN 3.3672); ("epsilon_k", QN 265.67)];
  mkEntry "carbon disulfide" 76.143 [("m", QN 1.6919); ("sigma", QN 3.6172); ("epsilon_k", QN 334.82)];
  mkEntry "methyl chloride" 50.488 [("m", QN 1.9297); ("sigma", QN 3.2293); ("epsilon_k", QN 240.56)];
  mkEntry "chloroethane" 64.514 [("m", QN 2.2638); ("sigma", QN 3.416); ("epsilon_k", QN 245.43)];
  mkEntry "2-chloropropane" 78.541 [("m", QN 2.4151); ("sigma", QN 3.6184); ("epsilon_k", QN 251.47)];
  mkEntry "1-chlorobutane" 92.568 [("m", QN 2.8585); ("sigma", QN 3.6424); ("epsilon_k", QN 258.66)];
  mkEntry "chlorobenzene" 112.558 [("m", QN 2.6485); ("sigma", QN 3.7533); ("epsilon_k", QN 315.04)];
  mkEntry "bromobenzene" 157.01 [("m", QN 2.6456); ("sigma", QN 3.836); ("epsilon_k", QN 334.37)];
  mkEntry "dimethyl ether" 46.069 [("m", QN 2.3071); ("sigma", QN 3.2528); ("epsilon_k", QN 211.06)];
  mkEntry "diethyl ether" 74.123 [("m", QN 2.9686); ("sigma", QN 3.5147); ("epsilon_k", QN 220.09)];
  mkEntry "methyl n-propyl ether" 74.123 [("m", QN 3.0087); ("sigma", QN 3.4569); ("epsilon_k", QN 222.73)];
  mkEntry "methyl methanoate" 60.053 [("m", QN 2.6784); ("sigma", QN 3.0875); ("epsilon_k", QN 242.63)];
  mkEntry "ethyl methanoate" 74.079 [("m", QN 2.8876); ("sigma", QN 3.3109); ("epsilon_k", QN 246.47)];
  mkEntry "propyl methanoate" 88.106 [("m", QN 3.2088); ("sigma", QN 3.4168); ("epsilon_k", QN 246.46)];
  mkEntry "ethyl ethanoate" 88.106 [("m", QN 3.5375); ("sigma", QN 3.3079); ("epsilon_k", QN 230.8)];
  mkEntry "propyl ethanoate" 102.133 [("m", QN 3.7861); ("sigma", QN 3.4227); ("epsilon_k", QN 235.76)];
  mkEntry "n-butyl ethanoate" 116.16 [("m", QN 3.9808); ("sigma", QN 3.5427); ("epsilon_k", QN 242.52)];
  mkEntry "isopropyl ethanoate" 102.133 [("m", QN 3.6084); ("sigma", QN 3.4818); ("epsilon_k", QN 231.91)];
  mkEntry "methyl propanoate" 88.106 [("m", QN 3.4793); ("sigma", QN 3.3142); ("epsilon_k", QN 234.96)];
  mkEntry "ethyl propanoate" 102.133 [("m", QN 3.8371); ("sigma", QN 3.4031); ("epsilon_k", QN 232.78)];
  mkEntry "propyl propanoate" 116.16 [("m", QN 4.1155); ("sigma", QN 3.4875); ("epsilon_k", QN 235.6)];
  mkEntry "methyl butanoate" 102.133 [("m", QN 3.6758); ("sigma", QN 3.4437); ("epsilon_k", QN 240.62)]
].

(** parameters/gross2002.json *)
Definition gross2002 : list entry := [
  mkEntry "methanol" 32.042 [("m", QN 1.5255); ("sigma", QN 3.23); ("epsilon_k", QN 188.9); ("kappa_ab", QN 0.035176); ("epsilon_k_ab", QN 2899.5)];
  mkEntry "ethanol" 46.069 [("m", QN 2.3827); ("sigma", QN 3.1771); ("epsilon_k", QN 198.24); ("kappa_ab", QN 0.032384); ("epsilon_k_ab", QN 2653.4)];
  mkEntry "1-propanol" 60.096 [("m", QN 2.9997); ("sigma", QN 3.2522); ("epsilon_k", QN 233.4); ("kappa_ab", QN 0.015268); ("epsilon_k_ab", QN 2276.8)];
  mkEntry "1-butanol" 74.123 [("m", QN 2.7515); ("sigma", QN 3.6139); ("epsilon_k", QN 259.59); ("kappa_ab", QN 0.006692); ("epsilon_k_ab", QN 2544.6)];
  mkEntry "1-pentanol" 88.15 [("m", QN 3.626); ("sigma", QN 3.4508); ("epsilon_k", QN 247.28); ("kappa_ab", QN 0.010319); ("epsilon_k_ab", QN 2252.1)];
  mkEntry "1-hexanol" 102.177 [("m", QN 3.5146); ("sigma", QN 3.6735); ("epsilon_k", QN 262.32); ("kappa_ab", QN 0.005747); ("epsilon_k_ab", QN 2538.9)];
  mkEntry "1-heptanol" 116.203 [("m", QN 4.3985); ("sigma", QN 3.545); ("epsilon_k", QN 253.46); ("kappa_ab", QN 0.001155); ("epsilon_k_ab", QN 2878.5)];
  mkEntry "1-octanol" 130.23 [("m", QN 4.3555); ("sigma", QN 3.7145); ("epsilon_k", QN 262.74); ("kappa_ab", QN 0.002197); ("epsilon_k_ab", QN 2754.8)];
  mkEntry "1-nonanol" 144.257 [("m", QN 4.6839); ("sigma", QN 3.7292); ("epsilon_k", QN 263.64); ("kappa_ab", QN 0.001427); ("epsilon_k_ab", QN 2941.9)];
  mkEntry "2-propanol" 60.096 [("m", QN 3.0929); ("sigma", QN 3.2085); ("epsilon_k", QN 208.42); ("kappa_ab", QN 0.024675); ("epsilon_k_ab", QN 2253.9)];
  mkEntry "2-methyl-2-butanol" 88.15 [("m", QN 2.5487); ("sigma", QN 3.9053); ("epsilon_k", QN 266.01); ("kappa_ab", QN 0.001863); ("epsilon_k_ab", QN 2618.8)];
  mkEntry "water" 18.015 [("m", QN 1.0656); ("sigma", QN 3.0007); ("epsilon_k", QN 366.51); ("kappa_ab", QN 0.034868); ("epsilon_k_ab", QN 2500.7)];
  mkEntry "methylamine" 31.06 [("m", QN 2.3967); ("sigma", QN 2.8906); ("epsilon_k", QN 214.94); ("kappa_ab", QN 0.095103); ("epsilon_k_ab", QN 684.3)];
  mkEntry "ethylamine" 45.09 [("m", QN 2.7046); ("sigma", QN 3.1343); ("epsilon_k", QN 221.53); ("kappa_ab", QN 0.017275); ("epsilon_k_ab", QN 854.7)];
  mkEntry "1-propylamine" 59.11 [("m", QN 2.4539); ("sigma", QN 3.5347); ("epsilon_k", QN 250.52); ("kappa_ab", QN 0.022674); ("epsilon_k_ab", QN 1028.1)];
  mkEntry "2-propylamine" 59.11 [("m", QN 2.5908); ("sigma", QN 3.4777); ("epsilon_k", QN 231.8); ("kappa_ab", QN 0.02134); ("epsilon_k_ab", QN 932.2)];
  mkEntry "aniline" 93.13 [("m", QN 2.6607); ("sigma", QN 3.7021); ("epsilon_k", QN 335.47); ("kappa_ab", QN 0.074883); ("epsilon_k_ab", QN 1351.6)];
  mkEntry "acetic acid" 60.053 [("m", QN 1.3403); ("sigma", QN 3.8582); ("epsilon_k", QN 211.59); ("kappa_ab", QN 0.07555); ("epsilon_k_ab", QN 3044.4)]
].

(** parameters/gross2005_fit.json *)
Definition gross2005_fit : list entry := [
  mkEntry "carbon dioxide" 44.01 [("m", QN 1.6298); ("sigma", QN 3.0867); ("epsilon_k", QN 163.34); ("q", QN 3.9546)];
  mkEntry "carbon disulfide" 76.143 [("m", QN 1.3906); ("sigma", QN 3.9453); ("epsilon_k", QN 344.25); ("q", QN 7.3662)];
  mkEntry "ethylene" 28.05 [("m", QN 1.5477); ("sigma", QN 3.4475); ("epsilon_k", QN 179.19); ("q", QN 1.9155)];
  mkEntry "acetylene" 26.04 [("m", QN 1.5587); ("sigma", QN 3.3325); ("epsilon_k", QN 174.68); ("q", QN 4.5415)];
  mkEntry "nitrogen" 28.01 [("m", QN 1.1879); ("sigma", QN 3.3353); ("epsilon_k", QN 90.99); ("q", QN 1.1151)];
  mkEntry "chlorine" 70.905 [("m", QN 1.4682); ("sigma", QN 3.448); ("epsilon_k", QN 269.67); ("q", QN 3.0724)];
  mkEntry "benzene" 78.114 [("m", QN 2.2463); ("sigma", QN 3.7852); ("epsilon_k", QN 296.24); ("q", QN 5.5907)]
].

(** parameters/gross2005_literature.json *)
Definition gross2005_literature : list entry := [
  mkEntry "carbon dioxide" 44.01 [("m", QN 1.5131); ("sigma", QN 3.1869); ("epsilon_k", QN 163.33); ("q", QN 4.4)];
  mkEntry "carbon disulfide" 76.143 [("m", QN 1.5876); ("sigma", QN 3.7106); ("epsilon_k", QN 342.08); ("q", QN 4.26)];
  mkEntry "ethylene" 28.05 [("m", QN 1.5425); ("sigma", QN 3.4523); ("epsilon_k", QN 179.37); ("q", QN 2.0)];
  mkEntry "acetylene" 26.04 [("m", QN 1.5477); ("sigma", QN 3.3428); ("epsilon_k", QN 174.48); ("q", QN 4.6)];
  mkEntry "nitrogen" 28.01 [("m", QN 1.1504); ("sigma", QN 3.3848); ("epsilon_k", QN 91.4); ("q", QN 1.43)];
  mkEntry "chlorine" 70.905 [("m", QN 1.3934); ("sigma", QN 3.5339); ("epsilon_k", QN 270.49); ("q", QN 4.1)]
].

(** parameters/gross2006.json *)
Definition gross2006 : list entry := [
  mkEntry "acetone" 58.08 [("m", QN 2.7447); ("sigma", QN 3.2742); ("epsilon_k", QN 232.99); ("mu", QN 2.88)];
  mkEntry "butanone" 72.107 [("m", QN 2.9835); ("sigma", QN 3.4239); ("epsilon_k", QN 244.99); ("mu", QN 2.78)];
  mkEntry "2-pentanone" 86.134 [("m", QN 3.3537); ("sigma", QN 3.4942); ("epsilon_k", QN 246.66); ("mu", QN 2.7)];
  mkEntry "3-pentanone" 86.134 [("m", QN 3.2786); ("sigma", QN 3.5159); ("epsilon_k", QN 248.69); ("mu", QN 2.82)];
  mkEntry "propanal" 58.08 [("m", QN 2.6001); ("sigma", QN 3.2872); ("epsilon_k", QN 235.21); ("mu", QN 2.72)];
  mkEntry "butanal" 72.107 [("m", QN 2.8825); ("sigma", QN 3.4698); ("epsilon_k", QN 247.09); ("mu", QN 2.72)];
  mkEntry "methyl methanoate" 60.053 [("m", QN 2.6225); ("sigma", QN 3.1095); ("epsilon_k", QN 239.05); ("mu", QN 1.77)];
  mkEntry "ethyl methanoate" 74.079 [("m", QN 2.8338); ("sigma", QN 3.3316); ("epsilon_k", QN 244.5); ("mu", QN 1.93)];
  mkEntry "propyl methanoate" 88.106 [("m", QN 3.1723); ("sigma", QN 3.4296); ("epsilon_k", QN 245.64); ("mu", QN 1.89)];
  mkEntry "ethyl ethanoate" 88.106 [("m", QN 3.506); ("sigma", QN 3.3177); ("epsilon_k", QN 230.24); ("mu", QN 1.78)];
  mkEntry "propyl ethanoate" 102.13 [("m", QN 3.7658); ("sigma", QN 3.4289); ("epsilon_k", QN 235.42); ("mu", QN 1.78)];
  mkEntry "n-butyl ethanoate" 116.16 [("m", QN 3.9629); ("sigma", QN 3.5482); ("epsilon_k", QN 242.27); ("mu", QN 1.87)];
  mkEntry "methyl propanoate" 88.106 [("m", QN 3.4442); ("sigma", QN 3.3255); ("epsilon_k", QN 234.26); ("mu", QN 1.85)];
  mkEntry "ethyl propanoate" 102.133 [("m", QN 3.7954); ("sigma", QN 3.4169); ("epsilon_k", QN 233.09); ("mu", QN 1.74)];
  mkEntry "propyl propanoate" 116.16 [("m", QN 4.0993); ("sigma", QN 3.4921); ("epsilon_k", QN 235.38); ("mu", QN 1.8)];
  mkEntry "methyl butanoate" 102.133 [("m", QN 3.642); ("sigma", QN 3.4535); ("epsilon_k", QN 240.02); ("mu", QN 2.03)];
  mkEntry "dimethyl ether" 46.069 [("m", QN 2.2634); ("sigma", QN 3.2723); ("epsilon_k", QN 210.29); ("mu", QN 1.3)];
  mkEntry "methyl ethyl ether" 60.096 [("m", QN 2.6425); ("sigma", QN 3.3794); ("epsilon_k", QN 215.79); ("mu", QN 1.17)];
  mkEntry "methyl n-propyl ether" 74.123 [("m", QN 3.0004); ("sigma", QN 3.4602); ("epsilon_k", QN 222.67); ("mu", QN 1.107)];
  mkEntry "diethyl ether" 74.123 [("m", QN 2.9726); ("sigma", QN 3.5127); ("epsilon_k", QN 219.53); ("mu", QN 1.15)];
  mkEntry "dmso" 78.13 [("m", QN 3.0243); ("sigma", QN 3.2427); ("epsilon_k", QN 309.36); ("mu", QN 3.96)];
  mkEntry "hcl" 36.461 [("m", QN 1.5194); ("sigma", QN 2.9794); ("epsilon_k", QN 203.32); ("mu", QN 1.109)];
  mkEntry "chloro methane" 50.488 [("m", QN 1.807); ("sigma", QN 3.3034); ("epsilon_k", QN 229.97); ("mu", QN 1.896)];
  mkEntry "chloro ethane" 64.514 [("m", QN 2.2207); ("sigma", QN 3.4335); ("epsilon_k", QN 237.03); ("mu", QN 2.05)]
].

(** parameters/loetgeringlin2018.json *)
Definition loetgeringlin2018 : list entry := [
  mkEntry "pentafluoroethane [r125]" 120.022 [("m", QN 3.0838); ("sigma", QN 3.1297); ("epsilon_k", QN 154.4771); ("mu", QN 1.5409); ("q", QN 0.0); ("kappa_ab", QN 0.0); ("epsilon_k_ab", QN 0.0); ("viscosity", QA [(-1.3005); (-2.8541); (-0.5396); (-0.1155)])];
  mkEntry "1,1,1,2,3,3,3-heptafluoropropane [r227ea]" 170.03 [("m", QN 3.5407); ("sigma", QN 3.301); ("epsilon_k", QN 160.9843); ("mu", QN 1.9396); ("q", QN 0.0); ("kappa_ab", QN 0.0); ("epsilon_k_ab", QN 0.0); ("viscosity", QA [(-1.3718); (-3.0118); (-0.554); (-0.1543)])];
  mkEntry "1,1,1,2,3,3-hexafluoropropane [r236ea]" 152.039 [("m", QN 3.681); ("sigma", QN 3.1918); ("epsilon_k", QN 177.2769); ("mu", QN 0.2009); ("q", QN 0.0); ("kappa_ab", QN 0.0); ("epsilon_k_ab", QN 0.0); ("viscosity", QA [(-0.977); (-2.4251); (-0.2831); (-0.1409)])];
  mkEntry "1,1,1,2-tetrafluoroethane [r134a]" 102.031 [("m", QN 3.1242); ("sigma", QN 3.0549); ("epsilon_k", QN 165.8855); ("mu", QN 2.0581); ("q", QN 0.0); ("kappa_ab", QN 0.0); ("epsilon_k_ab", QN 0.0); ("viscosity", QA [(-1.2914); (-2.6782); (-0.4505); (-0.1004)])];
  mkEntry "1,1,1,3,3,3-hexafluoropropane [r236fa]" 152.039 [("m", QN 3.6025); ("sigma", QN 3.2428); ("epsilon_k", QN 170.2242); ("mu", QN 1.9816); ("q", QN 0.0); ("kappa_ab", QN 0.0); ("epsilon_k_ab", QN 0.0); ("viscosity", QA [(-1.168); (-2.6971); (-0.4772); (-0.1409)])];
  mkEntry "1,1,1,3,3-pentafluoropropane [r245fa]" 134.049 [("m", QN 3.5888); ("sigma", QN 3.1797); ("epsilon_k", QN 184.7); ("mu", QN 1.5559); ("q", QN 0.0); ("kappa_ab", QN 0.0); ("epsilon_k_ab", QN 0.0); ("viscosity", QA [(-1.4285); (-2.9879); (-0.4947); (-0.1269)])];
  mkEntry "1,1,1-trichloroethane [r140a]" 133.404 [("m", QN 2.4793); ("sigma", QN 3.7527); ("epsilon_k", QN 275.4749); ("mu", QN 1.7808); ("q", QN 0.0); ("kappa_ab", QN 0.0); ("epsilon_k_ab", QN 0.0); ("viscosity", QA [(-1.0325); (-2.347); (-0.4703); (-0.1264)])];
  mkEntry "1,1,1-trifluoroethane [r143a]" 84.041 [("m", QN 2.4877); ("sigma", QN 3.2839); ("epsilon_k", QN 161.4797); ("mu", QN 2.3204); ("q", QN 0.0); ("kappa_ab", QN 0.0); ("epsilon_k_ab", QN 0.0); ("viscosity", QA [(-1.1297); (-2.2024); (-0.3203); (-0.0846)])];
  mkEntry "1,1-difluoroethane [r152a]" 66.051 [("m", QN 2.5999); ("sigma", QN 3.1426); ("epsilon_k", QN 179.9699); ("mu", QN 2.2619); ("q", QN 0.0); ("kappa_ab", QN 0.0); ("epsilon_k_ab", QN 0.0); ("viscosity", QA [(-1.1237); (-2.1489); (-0.2769); (-0.068)])];
  mkEntry "1,2-dichlorotetrafluoroethane [r114]" 170.921 [("m", QN 2.7766); ("sigma", QN 3.6468); ("epsilon_k", QN 202.3572); ("mu", QN 0.6685); ("q", QN 0.0); ("kappa_ab", QN 0.0); ("epsilon_k_ab", QN 0.0); ("viscosity", QA [(-1.1623); (-2.9065); (-0.6941); (-0.155)])];
  mkEntry "1,3,5-trimethylbenzene" 120.194 [("m", QN 3.671); ("sigma", QN 3.7284); ("epsilon_k", QN 277.6576); ("mu", QN 0.0); ("q", QN 0.0); ("kappa_ab", QN 0.0); ("epsilon_k_ab", QN 0.0); ("viscosity", QA [(-1.3566); (-2.6547); (-0.5489); (-0.1157)])];
  mkEntry "m-xylene" 106.167 [("m", QN 3.1861); ("sigma", QN 3.7563); ("epsilon_k", QN 283.98); ("mu", QN 0.0); ("q", QN 0.0); ("kappa_ab", QN 0.0); ("epsilon_k_ab", QN 0.0); ("viscosity", QA [(-1.2749); (-2.5804); (-0.5289); (-0.1039)])];
  mkEntry "p-xylene" 106.167 [("m", QN 3.1723); ("sigma", QN 3.7781); ("epsilon_k", QN 283.77); ("mu", QN 0.0); ("q", QN 0.0); ("kappa_ab", QN 0.0); ("epsilon_k_ab", QN 0.0); ("viscosity", QA [(-1.2749); (-2.6129); (-0.5418); (-0.1039)])];
  mkEntry "dibutyl ether" 130.23 [("m", QN 4.4126); ("sigma", QN 3.6997); ("epsilon_k", QN 233.9837); ("mu", QN 1.1692); ("q", QN 0.0); ("kappa_ab", QN 0.0); ("epsilon_k_ab", QN 0.0); ("viscosity", QA [(-1.3556); (-2.811); (-0.4985); (-0.1238)])];
  mkEntry "chloroperfluoroethane [r115]" 154.467 [("m", QN 2.7628); ("sigma", QN 3.5063); ("epsilon_k", QN 170.7613); ("mu", QN 0.5186); ("q", QN 0.0); ("kappa_ab", QN 0.0); ("epsilon_k_ab", QN 0.0); ("viscosity", QA [(-1.1464); (-2.7197); (-0.5569); (-0.1427)])];
  mkEntry "diethylene glycol dimethyl ether" 134.175 [("m", QN 4.2282); ("sigma", QN 3.5722); ("epsilon_k", QN 258.4078); ("mu", QN 1.97); ("q", QN 0.0); ("kappa_ab", QN 0.0); ("epsilon_k_ab", QN 0.0); ("viscosity", QA [(-1.2095); (-2.6243); (-0.4929); (-0.127)])];
  mkEntry "4-isopropyltoluene" 134.221 [("m", QN 3.6373); ("sigma", QN 3.907); ("epsilon_k", QN 284.1096); ("mu", QN 0.0); ("q", QN 0.0); ("kappa_ab", QN 0.0); ("epsilon_k_ab", QN 0.0); ("viscosity", QA [(-1.4434); (-2.8975); (-0.641); (-0.127)])];
  mkEntry "dipentyl ether" 158.284 [("m", QN 4.8197); ("sigma", QN 3.8391); ("epsilon_k", QN 246.5082); ("mu", QN 1.1992); ("q", QN 0.0); ("kappa_ab", QN 0.0); ("epsilon_k_ab", QN 0.0); ("viscosity", QA [(-1.4947); (-3.6239); (-0.8585); (-0.1456)])];
  mkEntry "di-n-propyl ether" 102.177 [("m", QN 3.4881); ("sigma", QN 3.6961); ("epsilon_k", QN 234.0444); ("mu", QN 1.2112); ("q", QN 0.0); ("kappa_ab", QN 0.0); ("epsilon_k_ab", QN 0.0); ("viscosity", QA [(-1.1967); (-2.5254); (-0.4272); (-0.1005)])];
  mkEntry "2,2,4,4,6,8,8-heptamethylnonane" 226.446 [("m", QN 5.017); ("sigma", QN 4.3017); ("epsilon_k", QN 266.5519); ("mu", QN 0.0); ("q", QN 0.0); ("kappa_ab", QN 0.0); ("epsilon_k_ab", QN 0.0); ("viscosity", QA [(-1.3808); (-3.2389); (-0.6518); (-0.1931)])];
  mkEntry "2,2,4-trimethylpentane" 114.231 [("m", QN 3.1352); ("sigma", QN 4.0918); ("epsilon_k", QN 250.0059); ("mu", QN 0.0); ("q", QN 0.0); ("kappa_ab", QN 0.0); ("epsilon_k_ab", QN 0.0); ("viscosity", QA [(-1.1464); (-2.7647); (-0.5615); (-0.1107)])];
  mkEntry "2,2-dimethylbutane" 86.177 [("m", QN 2.6008); ("sigma", QN 4.0042); ("epsilon_k", QN 243.51); ("mu", QN 0.0); ("q", QN 0.0); ("kappa_ab", QN 0.0); ("epsilon_k_ab", QN 0.0); ("viscosity", QA [(-0.9375); (-2.1668); (-0.2861); (-0.0865)])];
  mkEntry "2,2-dimethylpropane" 72.15 [("m", QN 2.3543); ("sigma", QN 3.955); ("epsilon_k", QN 225.69); ("mu", QN 0.0); ("q", QN 0.0); ("kappa_ab", QN 0.0); ("epsilon_k_ab", QN 0.0); ("viscosity", QA [(-0.7986); (-2.0899); (-0.2188); (-0.0737)])];
  mkEntry "2,3,4-trimethyl pentane" 114.231 [("m", QN 3.198); ("sigma", QN 4.025); ("epsilon_k", QN 258.5959); ("mu", QN 0.0); ("q", QN 0.0); ("kappa_ab", QN 0.0); ("epsilon_k_ab", QN 0.0); ("viscosity", QA [(-1.3623); (-2.932); (-0.5877); (-0.1107)])];
  mkEntry "2,3-dimethylbutane" 86.177 [("m", QN 2.6853); ("sigma", QN 3.9545); ("epsilon_k", QN 246.07); ("mu", QN 0.0); ("q", QN 0.0); ("kappa_ab", QN 0.0); ("epsilon_k_ab", QN 0.0); ("viscosity", QA [(-1.177); (-2.4259); (-0.3992); (-0.0865)])];
  mkEntry "2,4-dimethylpentane" 100.204 [("m", QN 3.1235); ("sigma", QN 3.9346); ("epsilon_k", QN 239.7005); ("mu", QN 0.0); ("q", QN 0.0); ("kappa_ab", QN 0.0); ("epsilon_k_ab", QN 0.0); ("viscosity", QA [(-1.2789); (-2.7334); (-0.5402); (-0.0988)])];
  mkEntry "squalane" 422.822 [("m", QN 9.734); ("sigma", QN 4.2525); ("epsilon_k", QN 263.7664); ("mu", QN 0.0); ("q", QN 0.0); ("kappa_ab", QN 0.0); ("epsilon_k_ab", QN 0.0); ("viscosity", QA [(-2.6069); (-5.3734); (-1.3691); (-0.2979)])];
  mkEntry "methyl tert-butyl ether (mtbe)" 88.15 [("m", QN 2.9286); ("sigma", QN 3.711); ("epsilon_k", QN 233.9573); ("mu", QN 1.361); ("q", QN 0.0); ("kappa_ab", QN 0.0); ("epsilon_k_ab", QN 0.0); ("viscosity", QA [(-0.9246); (-2.401); (-0.426); (-0.0883)])];
  mkEntry "2-methylbutane" 72.15 [("m", QN 2.562); ("sigma", QN 3.8296); ("epsilon_k", QN 230.75); ("mu", QN 0.0); ("q", QN 0.0); ("kappa_ab", QN 0.0); ("epsilon_k_ab", QN 0.0); ("viscosity", QA [(-1.0805); (-2.4514); (-0.439); (-0.0737)])];
  mkEntry "2-methylpentane" 86.177 [("m", QN 2.9317); ("sigma", QN 3.8535); ("epsilon_k", QN 235.58); ("mu", QN 0.0); ("q", QN 0.0); ("kappa_ab", QN 0.0); ("epsilon_k_ab", QN 0.0); ("viscosity", QA [(-1.191); (-2.5695); (-0.4813); (-0.0865)])];
  mkEntry "isobutylene" 56.108 [("m", QN 2.2515); ("sigma", QN 3.6636); ("epsilon_k", QN 223.2165); ("mu", QN 0.5006); ("q", QN 0.0); ("kappa_ab", QN 0.0); ("epsilon_k_ab", QN 0.0); ("viscosity", QA [(-0.9838); (-2.1027); (-0.3034); (-0.0585)])];
  mkEntry "2-methylpropanal" 72.107 [("m", QN 2.6157); ("sigma", QN 3.5699); ("epsilon_k", QN 251.5072); ("mu", QN 2.6981); ("q", QN 0.0); ("kappa_ab", QN 0.0); ("epsilon_k_ab", QN 0.0); ("viscosity", QA [(-0.5688); (-2.2652); (-0.4374); (-0.0737)])];
  mkEntry "2-methylpropane" 58.123 [("m", QN 2.2616); ("sigma", QN 3.7574); ("epsilon_k", QN 216.53); ("mu", QN 0.0); ("q", QN 0.0); ("kappa_ab", QN 0.0); ("epsilon_k_ab", QN 0.0); ("viscosity", QA [(-0.9521); (-2.2586); (-0.3438); (-0.0605)])];
  mkEntry "diisopropyl ether" 102.177 [("m", QN 3.5466); ("sigma", QN 3.6737); ("epsilon_k", QN 216.8508); ("mu", QN 1.1302); ("q", QN 0.0); ("kappa_ab", QN 0.0); ("epsilon_k_ab", QN 0.0); ("viscosity", QA [(-1.3532); (-2.8157); (-0.5234); (-0.1005)])];
  mkEntry "3-ethylpentane" 100.204 [("m", QN 3.1886); ("sigma", QN 3.887); ("epsilon_k", QN 247.0555); ("mu", QN 0.0); ("q", QN 0.0); ("kappa_ab", QN 0.0); ("epsilon_k_ab", QN 0.0); ("viscosity", QA [(-1.2889); (-2.6369); (-0.5094); (-0.0988)])];
  mkEntry "3-methylbutyraldehyde" 86.134 [("m", QN 3.0004); ("sigma", QN 3.6188); ("epsilon_k", QN 255.2047); ("mu", QN 2.6082); ("q", QN 0.0); ("kappa_ab", QN 0.0); ("epsilon_k_ab", QN 0.0); ("viscosity", QA [(-0.6655); (-1.8956); (-0.2519); (-0.0865)])];
  mkEntry "isoamyl acetate" 130.187 [("m", QN 4.0348); ("sigma", QN 3.6672); ("epsilon_k", QN 247.4168); ("mu", QN 1.7987); ("q", QN 0.0); ("kappa_ab", QN 0.0); ("epsilon_k_ab", QN 0.0); ("viscosity", QA [(-1.4118); (-2.9353); (-0.5861); (-0.1238)])];
  mkEntry "3-methylpentane" 86.177 [("m", QN 2.8852); ("sigma", QN 3.8605); ("epsilon_k", QN 240.48); ("mu", QN 0.0); ("q", QN 0.0); ("kappa_ab", QN 0.0); ("epsilon_k_ab", QN 0.0); ("viscosity", QA [(-1.191); (-2.5416); (-0.469); (-0.0865)])];
  mkEntry "4-methyl-2-pentanone" 100.161 [("m", QN 3.473); ("sigma", QN 3.6296); ("epsilon_k", QN 250.53); ("mu", QN 2.6891); ("q", QN 0.0); ("kappa_ab", QN 0.0); ("epsilon_k_ab", QN 0.0); ("viscosity", QA [(-1.3442); (-3.0229); (-0.6378); (-0.0988)])];
  mkEntry "n,n-diethylamine" 73.138 [("m", QN 1.3688); ("sigma", QN 4.7262); ("epsilon_k", QN 295.2136); ("mu", QN 0.9204); ("q", QN 0.0); ("kappa_ab", QN 0.03); ("epsilon_k_ab", QN 1547.4422); ("viscosity", QA [(-0.6824); (-2.129); (-0.5989); (-0.0746)])];
  mkEntry "dimethylamine" 45.084 [("m", QN 2.2493); ("sigma", QN 3.3738); ("epsilon_k", QN 226.4848); ("mu", QN 1.0313); ("q", QN 0.0); ("kappa_ab", QN 0.03); ("epsilon_k_ab", QN 959.5053); ("viscosity", QA [(-0.3807); 2.1585; 0.9391; (-0.0477)])];
  mkEntry "dipropylamine" 101.192 [("m", QN 3.6653); ("sigma", QN 3.6551); ("epsilon_k", QN 240.4467); ("mu", QN 1.07); ("q", QN 0.0); ("kappa_ab", QN 0.03); ("epsilon_k_ab", QN 39.2881); ("viscosity", QA [(-0.8987); (-2.1083); (-0.2763); (-0.0997)])];
  mkEntry "acetaldehyde" 44.053 [("m", QN 2.1188); ("sigma", QN 3.246); ("epsilon_k", QN 229.8505); ("mu", QN 2.6891); ("q", QN 0.0); ("kappa_ab", QN 0.0); ("epsilon_k_ab", QN 0.0); ("viscosity", QA [(-0.3574); (-0.7933); 0.1404; (-0.0467)])];
  mkEntry "benzene" 78.114 [("m", QN 2.2463); ("sigma", QN 3.7852); ("epsilon_k", QN 296.24); ("mu", QN 0.0); ("q", QN 5.5907); ("kappa_ab", QN 0.0); ("epsilon_k_ab", QN 0.0); ("viscosity", QA [(-1.0929); (-2.2871); (-0.4125); (-0.0792)])];
  mkEntry "trifluorobromomethane [r13b1]" 148.91 [("m", QN 2.1338); ("sigma", QN 3.5126); ("epsilon_k", QN 185.5387); ("mu", QN 0.6505); ("q", QN 0.0); ("kappa_ab", QN 0.0); ("epsilon_k_ab", QN 0.0); ("viscosity", QA [(-0.9604); (-2.6583); (-0.7764); (-0.1385)])];
  mkEntry "butylamine" 73.138 [("m", QN 1.7814); ("sigma", QN 4.2631); ("epsilon_k", QN 293.8144); ("mu", QN 1.391); ("q", QN 0.0); ("kappa_ab", QN 0.03); ("epsilon_k_ab", QN 1497.5173); ("viscosity", QA [(-0.8691); (-2.3216); (-0.5911); (-0.0746)])];
  mkEntry "1-butanol" 74.123 [("m", QN 4.2768); ("sigma", QN 3.0659); ("epsilon_k", QN 217.7082); ("mu", QN 1.6698); ("q", QN 0.0); ("kappa_ab", QN 0.03); ("epsilon_k_ab", QN 1846.2029); ("viscosity", QA [(-1.0065); (-1.88906); (-0.12523); (-0.07554)])];
  mkEntry "2-butanol" 74.123 [("m", QN 4.4207); ("sigma", QN 3.0151); ("epsilon_k", QN 205.1808); ("mu", QN 1.6608); ("q", QN 0.0); ("kappa_ab", QN 0.03); ("epsilon_k_ab", QN 1718.0488); ("viscosity", QA [(-0.9864); (-1.3818); 0.203; (-0.0755)])];
  mkEntry "2-butanone" 72.107 [("m", QN 2.9835); ("sigma", QN 3.4239); ("epsilon_k", QN 244.99); ("mu", QN 2.78); ("q", QN 0.0); ("kappa_ab", QN 0.0); ("epsilon_k_ab", QN 0.0); ("viscosity", QA [(-1.1653); (-2.4287); (-0.4373); (-0.0737)])];
  mkEntry "butyraldehyde" 72.107 [("m", QN 2.8825); ("sigma", QN 3.4698); ("epsilon_k", QN 247.09); ("mu", QN 2.72); ("q", QN 0.0); ("kappa_ab", QN 0.0); ("epsilon_k_ab", QN 0.0); ("viscosity", QA [(-0.5809); (-2.0176); (-0.3375); (-0.0737)])];
  mkEntry "n-butane" 58.123 [("m", QN 2.3316); ("sigma", QN 3.7086); ("epsilon_k", QN 222.88); ("mu", QN 0.0); ("q", QN 0.0); ("kappa_ab", QN 0.0); ("epsilon_k_ab", QN 0.0); ("viscosity", QA [(-0.9763); (-2.2413); (-0.369); (-0.0605)])];
  mkEntry "butyl acetate" 116.16 [("m", QN 3.9629); ("sigma", QN 3.5482); ("epsilon_k", QN 242.27); ("mu", QN 1.87); ("q", QN 0.0); ("kappa_ab", QN 0.0); ("epsilon_k_ab", QN 0.0); ("viscosity", QA [(-1.3379); (-2.7683); (-0.5104); (-0.1123)])];
  mkEntry "butylbenzene" 134.221 [("m", QN 3.7662); ("sigma", QN 3.8727); ("epsilon_k", QN 283.07); ("mu", QN 0.0); ("q", QN 0.0); ("kappa_ab", QN 0.0); ("epsilon_k_ab", QN 0.0); ("viscosity", QA [(-1.4557); (-2.8655); (-0.5777); (-0.127)])];
  mkEntry "carbon dioxide" 44.01 [("m", QN 1.5131); ("sigma", QN 3.1869); ("epsilon_k", QN 163.33); ("mu", QN 0.0); ("q", QN 4.4); ("kappa_ab", QN 0.0); ("epsilon_k_ab", QN 0.0); ("viscosity", QA [(-0.5138); (-1.3768); (-0.2074); (-0.0467)])];
  mkEntry "isopropylbenzene" 120.194 [("m", QN 3.3779); ("sigma", QN 3.8376); ("epsilon_k", QN 281.5324); ("mu", QN 0.3897); ("q", QN 0.0); ("kappa_ab", QN 0.0); ("epsilon_k_ab", QN 0.0); ("viscosity", QA [(-1.3671); (-2.8169); (-0.6018); (-0.1157)])];
  mkEntry "cyclohexane" 84.161 [("m", QN 2.5303); ("sigma", QN 3.8499); ("epsilon_k", QN 278.11); ("mu", QN 0.0); ("q", QN 0.0); ("kappa_ab", QN 0.0); ("epsilon_k_ab", QN 0.0); ("viscosity", QA [(-0.9982); (-2.3823); (-0.3169); (-0.0847)])];
  mkEntry "cyclooctane" 112.215 [("m", QN 2.9236); ("sigma", QN 3.9831); ("epsilon_k", QN 304.8636); ("mu", QN 0.0); ("q", QN 0.0); ("kappa_ab", QN 0.0); ("epsilon_k_ab", QN 0.0); ("viscosity", QA [(-1.3132); (-2.4521); (-0.3023); (-0.109)])];
  mkEntry "cyclopentane" 70.134 [("m", QN 2.3655); ("sigma", QN 3.7114); ("epsilon_k", QN 265.83); ("mu", QN 0.0); ("q", QN 0.0); ("kappa_ab", QN 0.0); ("epsilon_k_ab", QN 0.0); ("viscosity", QA [(-0.8485); (-2.3053); (-0.3801); (-0.0718)])];
  mkEntry "1-decene" 140.269 [("m", QN 4.4503); ("sigma", QN 3.8544); ("epsilon_k", QN 248.2291); ("mu", QN 0.4197); ("q", QN 0.0); ("kappa_ab", QN 0.0); ("epsilon_k_ab", QN 0.0); ("viscosity", QA [(-1.5058); (-3.2891); (-0.7212); (-0.1318)])];
  mkEntry "n-decylamine" 157.299 [("m", QN 2.4141); ("sigma", QN 4.9185); ("epsilon_k", QN 313.772); ("mu", QN 1.409); ("q", QN 0.0); ("kappa_ab", QN 0.03); ("epsilon_k_ab", QN 2644.5966); ("viscosity", QA [(-1.3992); (-3.2065); (-1.039); (-0.1449)])];
  mkEntry "1-decanol" 158.284 [("m", QN 5.7328); ("sigma", QN 3.596); ("epsilon_k", QN 243.7089); ("mu", QN 1.6189); ("q", QN 0.0); ("kappa_ab", QN 0.03); ("epsilon_k_ab", QN 1967.8312); ("viscosity", QA [(-1.5371); (-2.97397); (-0.50795); (-0.14562)])];
  mkEntry "n-decanal" 156.268 [("m", QN 5.2885); ("sigma", QN 3.6634); ("epsilon_k", QN 251.9655); ("mu", QN 2.5782); ("q", QN 0.0); ("kappa_ab", QN 0.0); ("epsilon_k_ab", QN 0.0); ("viscosity", QA [(-1.0452); (-2.9497); (-0.6641); (-0.1441)])];
  mkEntry "decane" 142.285 [("m", QN 4.6627); ("sigma", QN 3.8384); ("epsilon_k", QN 243.87); ("mu", QN 0.0); ("q", QN 0.0); ("kappa_ab", QN 0.0); ("epsilon_k_ab", QN 0.0); ("viscosity", QA [(-1.5367); (-3.149); (-0.6154); (-0.1334)])];
  mkEntry "dichlorofluoromethane [r21]" 102.923 [("m", QN 2.4475); ("sigma", QN 3.3353); ("epsilon_k", QN 229.5168); ("mu", QN 1.2891); ("q", QN 0.0); ("kappa_ab", QN 0.0); ("epsilon_k_ab", QN 0.0); ("viscosity", QA [(-0.985); (-2.3249); (-0.4743); (-0.1012)])];
  mkEntry "difluoromethane [r32]" 52.024 [("m", QN 2.4382); ("sigma", QN 2.8148); ("epsilon_k", QN 162.6954); ("mu", QN 1.9786); ("q", QN 0.0); ("kappa_ab", QN 0.0); ("epsilon_k_ab", QN 0.0); ("viscosity", QA [(-1.0833); (-1.9968); (-0.2503); (-0.0546)])];
  mkEntry "docosane" 310.607 [("m", QN 8.9886); ("sigma", QN 3.9466); ("epsilon_k", QN 253.9514); ("mu", QN 0.0); ("q", QN 0.0); ("kappa_ab", QN 0.0); ("epsilon_k_ab", QN 0.0); ("viscosity", QA [(-2.2094); (-4.3373); (-0.9708); (-0.243)])];
  mkEntry "1-dodecanol" 186.338 [("m", QN 6.2353); ("sigma", QN 3.6999); ("epsilon_k", QN 249.0952); ("mu", QN 1.6908); ("q", QN 0.0); ("kappa_ab", QN 0.03); ("epsilon_k_ab", QN 2002.9613); ("viscosity", QA [(-1.6684); (-3.9471); (-0.9305); (-0.1661)])];
  mkEntry "dodecane" 170.338 [("m", QN 5.306); ("sigma", QN 3.8959); ("epsilon_k", QN 249.21); ("mu", QN 0.0); ("q", QN 0.0); ("kappa_ab", QN 0.0); ("epsilon_k_ab", QN 0.0); ("viscosity", QA [(-1.6719); (-3.3902); (-0.6956); (-0.1546)])];
  mkEntry "1-phenyldodecane" 246.436 [("m", QN 6.8535); ("sigma", QN 3.9041); ("epsilon_k", QN 270.8303); ("mu", QN 0.0); ("q", QN 0.0); ("kappa_ab", QN 0.0); ("epsilon_k_ab", QN 0.0); ("viscosity", QA [(-1.963); (-3.772); (-0.8318); (-0.2058)])];
  mkEntry "dotriacontane" 450.876 [("m", QN 12.1112); ("sigma", QN 4.0303); ("epsilon_k", QN 258.4649); ("mu", QN 0.0); ("q", QN 0.0); ("kappa_ab", QN 0.0); ("epsilon_k_ab", QN 0.0); ("viscosity", QA [(-2.6388); (-5.1); (-1.2007); (-0.31)])];
  mkEntry "ethane" 30.07 [("m", QN 1.6069); ("sigma", QN 3.5206); ("epsilon_k", QN 191.42); ("mu", QN 0.0); ("q", QN 0.0); ("kappa_ab", QN 0.0); ("epsilon_k_ab", QN 0.0); ("viscosity", QA [(-0.5741); (-1.5923); (-0.1959); (-0.0325)])];
  mkEntry "1,2-ethanediol" 62.068 [("m", QN 2.6124); ("sigma", QN 3.1536); ("epsilon_k", QN 310.114); ("mu", QN 2.4103); ("q", QN 0.0); ("kappa_ab", QN 0.03); ("epsilon_k_ab", QN 2711.6591); ("viscosity", QA [(-0.7689); (-0.9258); (-0.1133); (-0.0642)])];
  mkEntry "ethanol" 46.069 [("m", QN 2.3723); ("sigma", QN 3.1964); ("epsilon_k", QN 203.8245); ("mu", QN 1.6908); ("q", QN 0.0); ("kappa_ab", QN 0.03); ("epsilon_k_ab", QN 2514.0609); ("viscosity", QA [(-1.08153); (-1.1998); (-0.13292); (-0.0487)])];
  mkEntry "ethylene" 28.054 [("m", QN 1.5425); ("sigma", QN 3.4523); ("epsilon_k", QN 179.37); ("mu", QN 0.0); ("q", QN 2.0); ("kappa_ab", QN 0.0); ("epsilon_k_ab", QN 0.0); ("viscosity", QA [(-0.4941); (-1.4818); (-0.1407); (-0.0304)])];
  mkEntry "vinyl acetate" 86.09 [("m", QN 3.3946); ("sigma", QN 3.2692); ("epsilon_k", QN 232.2234); ("mu", QN 1.7897); ("q", QN 0.0); ("kappa_ab", QN 0.0); ("epsilon_k_ab", QN 0.0); ("viscosity", QA [(-1.1242); (-2.4374); (-0.4095); (-0.0864)])];
  mkEntry "diethyl ether" 74.123 [("m", QN 2.9726); ("sigma", QN 3.5127); ("epsilon_k", QN 219.53); ("mu", QN 1.15); ("q", QN 0.0); ("kappa_ab", QN 0.0); ("epsilon_k_ab", QN 0.0); ("viscosity", QA [(-1.007); (-2.2992); (-0.3894); (-0.0755)])];
  mkEntry "ethylbenzene" 106.167 [("m", QN 3.0799); ("sigma", QN 3.7974); ("epsilon_k", QN 287.35); ("mu", QN 0.0); ("q", QN 0.0); ("kappa_ab", QN 0.0); ("epsilon_k_ab", QN 0.0); ("viscosity", QA [(-1.2856); (-2.6929); (-0.5605); (-0.1039)])];
  mkEntry "fluoroform [r23]" 70.014 [("m", QN 2.5662); ("sigma", QN 2.8588); ("epsilon_k", QN 140.9286); ("mu", QN 1.6488); ("q", QN 0.0); ("kappa_ab", QN 0.0); ("epsilon_k_ab", QN 0.0); ("viscosity", QA [(-1.0556); (-2.0562); (-0.2825); (-0.0717)])];
  mkEntry "heneicosane" 296.58 [("m", QN 8.7495); ("sigma", QN 3.9192); ("epsilon_k", QN 252.3877); ("mu", QN 0.0); ("q", QN 0.0); ("kappa_ab", QN 0.0); ("epsilon_k_ab", QN 0.0); ("viscosity", QA [(-2.1622); (-4.2184); (-0.9136); (-0.2353)])];
  mkEntry "1-heptene" 98.188 [("m", QN 3.2863); ("sigma", QN 3.8138); ("epsilon_k", QN 243.7559); ("mu", QN 0.6296); ("q", QN 0.0); ("kappa_ab", QN 0.0); ("epsilon_k_ab", QN 0.0); ("viscosity", QA [(-1.2614); (-2.6535); (-0.5149); (-0.0971)])];
  mkEntry "heptadecane" 240.473 [("m", QN 6.9809); ("sigma", QN 3.9675); ("epsilon_k", QN 255.65); ("mu", QN 0.0); ("q", QN 0.0); ("kappa_ab", QN 0.0); ("epsilon_k_ab", QN 0.0); ("viscosity", QA [(-1.9615); (-3.8823); (-0.8386); (-0.2021)])];
  mkEntry "heptylamine" 115.219 [("m", QN 1.688); ("sigma", QN 5.0417); ("epsilon_k", QN 328.7725); ("mu", QN 1.6608); ("q", QN 0.0); ("kappa_ab", QN 0.03); ("epsilon_k_ab", QN 2220.2939); ("viscosity", QA [(-1.1698); (-3.4917); (-1.0288); (-0.1116)])];
  mkEntry "1-heptanol" 116.203 [("m", QN 4.7248); ("sigma", QN 3.461); ("epsilon_k", QN 237.6069); ("mu", QN 1.7388); ("q", QN 0.0); ("kappa_ab", QN 0.03); ("epsilon_k_ab", QN 1956.8424); ("viscosity", QA [(-1.3075); (-2.24414); (-0.26729); (-0.11237)])];
  mkEntry "2-heptanol" 116.203 [("m", QN 5.135); ("sigma", QN 3.3462); ("epsilon_k", QN 219.5951); ("mu", QN 1.6488); ("q", QN 0.0); ("kappa_ab", QN 0.03); ("epsilon_k_ab", QN 1878.5922); ("viscosity", QA [(-1.3001); (-1.7492); 0.0215; (-0.1124)])];
  mkEntry "4-heptanone" 114.188 [("m", QN 3.7347); ("sigma", QN 3.6958); ("epsilon_k", QN 259.1972); ("mu", QN 2.5002); ("q", QN 0.0); ("kappa_ab", QN 0.0); ("epsilon_k_ab", QN 0.0); ("viscosity", QA [(-1.4324); (-2.8019); (-0.5333); (-0.1107)])];
  mkEntry "heptanal" 114.188 [("m", QN 3.8527); ("sigma", QN 3.66); ("epsilon_k", QN 260.6984); ("mu", QN 2.5782); ("q", QN 0.0); ("kappa_ab", QN 0.0); ("epsilon_k_ab", QN 0.0); ("viscosity", QA [(-0.8376); (-2.8879); (-0.6488); (-0.1107)])];
  mkEntry "heptane" 100.204 [("m", QN 3.4831); ("sigma", QN 3.8049); ("epsilon_k", QN 238.4); ("mu", QN 0.0); ("q", QN 0.0); ("kappa_ab", QN 0.0); ("epsilon_k_ab", QN 0.0); ("viscosity", QA [(-1.2979); (-2.6936); (-0.4951); (-0.0988)])];
  mkEntry "heptyl acetate" 158.241 [("m", QN 5.3414); ("sigma", QN 3.5818); ("epsilon_k", QN 240.1371); ("mu", QN 1.8707); ("q", QN 0.0); ("kappa_ab", QN 0.0); ("epsilon_k_ab", QN 0.0); ("viscosity", QA [(-1.556); (-3.0556); (-0.5314); (-0.1456)])];
  mkEntry "heptylbenzene" 176.302 [("m", QN 4.5229); ("sigma", QN 3.9994); ("epsilon_k", QN 289.0709); ("mu", QN 0.0); ("q", QN 0.0); ("kappa_ab", QN 0.0); ("epsilon_k_ab", QN 0.0); ("viscosity", QA [(-1.6693); (-3.4376); (-0.8015); (-0.1589)])];
  mkEntry "1-hexene" 84.161 [("m", QN 2.9853); ("sigma", QN 3.7753); ("epsilon_k", QN 236.81); ("mu", QN 0.0); ("q", QN 0.0); ("kappa_ab", QN 0.0); ("epsilon_k_ab", QN 0.0); ("viscosity", QA [(-1.164); (-2.4505); (-0.4432); (-0.0847)])];
  mkEntry "1-hexadecanol" 242.445 [("m", QN 7.0917); ("sigma", QN 3.8845); ("epsilon_k", QN 259.4044); ("mu", QN 1.6698); ("q", QN 0.0); ("kappa_ab", QN 0.03); ("epsilon_k_ab", QN 2140.2545); ("viscosity", QA [(-1.8993); (-3.0227); (-0.5234); (-0.2033)])];
  mkEntry "hexadecane" 226.446 [("m", QN 6.6485); ("sigma", QN 3.9552); ("epsilon_k", QN 254.7); ("mu", QN 0.0); ("q", QN 0.0); ("kappa_ab", QN 0.0); ("epsilon_k_ab", QN 0.0); ("viscosity", QA [(-1.9077); (-3.8125); (-0.829); (-0.1931)])];
  mkEntry "hexylamine" 101.192 [("m", QN 3.9434); ("sigma", QN 3.5463); ("epsilon_k", QN 247.4674); ("mu", QN 1.5889); ("q", QN 0.0); ("kappa_ab", QN 0.03); ("epsilon_k_ab", QN 82.5108); ("viscosity", QA [(-1.0803); (-2.3348); (-0.3037); (-0.0997)])];
  mkEntry "1-hexanol" 102.177 [("m", QN 4.3974); ("sigma", QN 3.3897); ("epsilon_k", QN 235.5309); ("mu", QN 1.6488); ("q", QN 0.0); ("kappa_ab", QN 0.03); ("epsilon_k_ab", QN 1930.6231); ("viscosity", QA [(-1.218); (-2.0634); (-0.21639); (-0.10052)])];
  mkEntry "2-hexanol" 102.177 [("m", QN 4.7812); ("sigma", QN 3.2816); ("epsilon_k", QN 217.9545); ("mu", QN 1.6578); ("q", QN 0.0); ("kappa_ab", QN 0.03); ("epsilon_k_ab", QN 1793.3615); ("viscosity", QA [(-1.2075); (-1.7111); 0.0319; (-0.1005)])];
  mkEntry "2-hexanone" 100.161 [("m", QN 3.5951); ("sigma", QN 3.5814); ("epsilon_k", QN 254.4017); ("mu", QN 2.6801); ("q", QN 0.0); ("kappa_ab", QN 0.0); ("epsilon_k_ab", QN 0.0); ("viscosity", QA [(-1.3512); (-2.5662); (-0.4335); (-0.0988)])];
  mkEntry "hexane" 86.177 [("m", QN 3.0576); ("sigma", QN 3.7983); ("epsilon_k", QN 236.77); ("mu", QN 0.0); ("q", QN 0.0); ("kappa_ab", QN 0.0); ("epsilon_k_ab", QN 0.0); ("viscosity", QA [(-1.2035); (-2.5958); (-0.4816); (-0.0865)])];
  mkEntry "hexatriacontane" 506.984 [("m", QN 13.0294); ("sigma", QN 4.0906); ("epsilon_k", QN 261.2998); ("mu", QN 0.0); ("q", QN 0.0); ("kappa_ab", QN 0.0); ("epsilon_k_ab", QN 0.0); ("viscosity", QA [(-2.7953); (-5.655); (-1.4638); (-0.3325)])];
  mkEntry "eicosane" 282.553 [("m", QN 7.9849); ("sigma", QN 3.9869); ("epsilon_k", QN 257.75); ("mu", QN 0.0); ("q", QN 0.0); ("kappa_ab", QN 0.0); ("epsilon_k_ab", QN 0.0); ("viscosity", QA [(-2.1139); (-4.1759); (-0.9573); (-0.2273)])];
  mkEntry "methylamine" 31.057 [("m", QN 1.6191); ("sigma", QN 3.337); ("epsilon_k", QN 246.3797); ("mu", QN 1.3101); ("q", QN 0.0); ("kappa_ab", QN 0.03); ("epsilon_k_ab", QN 1103.6088); ("viscosity", QA [(-0.369); (-1.2753); (-0.2168); (-0.0335)])];
  mkEntry "methane" 16.043 [("m", QN 1.0); ("sigma", QN 3.7039); ("epsilon_k", QN 150.03); ("mu", QN 0.0); ("q", QN 0.0); ("kappa_ab", QN 0.0); ("epsilon_k_ab", QN 0.0); ("viscosity", QA [(-0.0595); (-0.8908); (-0.0348); (-0.0177)])];
  mkEntry "methanol" 32.042 [("m", QN 1.5073); ("sigma", QN 3.3248); ("epsilon_k", QN 211.5975); ("mu", QN 1.6998); ("q", QN 0.0); ("kappa_ab", QN 0.03); ("epsilon_k_ab", QN 2519.7116); ("viscosity", QA [(-0.577); (-0.44059); 0.03545; (-0.01064)])];
  mkEntry "dimethyl ether" 46.069 [("m", QN 2.2634); ("sigma", QN 3.2723); ("epsilon_k", QN 210.29); ("mu", QN 1.3); ("q", QN 0.0); ("kappa_ab", QN 0.0); ("epsilon_k_ab", QN 0.0); ("viscosity", QA [(-0.8518); (-1.8921); (-0.2578); (-0.0487)])];
  mkEntry "nitrogen" 28.014 [("m", QN 1.1504); ("sigma", QN 3.3848); ("epsilon_k", QN 91.4); ("mu", QN 0.0); ("q", QN 1.43); ("kappa_ab", QN 0.0); ("epsilon_k_ab", QN 0.0); ("viscosity", QA [(-0.1964); (-0.9461); (-0.031); (-0.0303)])];
  mkEntry "1-nonene" 126.242 [("m", QN 4.0617); ("sigma", QN 3.8452); ("epsilon_k", QN 247.0709); ("mu", QN 0.5996); ("q", QN 0.0); ("kappa_ab", QN 0.0); ("epsilon_k_ab", QN 0.0); ("viscosity", QA [(-1.4305); (-2.7664); (-0.5102); (-0.1206)])];
  mkEntry "nonadecane" 268.527 [("m", QN 7.7175); ("sigma", QN 3.9721); ("epsilon_k", QN 256.0); ("mu", QN 0.0); ("q", QN 0.0); ("kappa_ab", QN 0.0); ("epsilon_k_ab", QN 0.0); ("viscosity", QA [(-2.0644); (-4.0653); (-0.8991); (-0.2191)])];
  mkEntry "1-aminononane" 143.272 [("m", QN 2.0093); ("sigma", QN 5.07); ("epsilon_k", QN 314.0984); ("mu", QN 0.8994); ("q", QN 0.0); ("kappa_ab", QN 0.03); ("epsilon_k_ab", QN 2731.5672); ("viscosity", QA [(-1.3279); (-3.1517); (-1.0221); (-0.1341)])];
  mkEntry "1-nonanol" 144.257 [("m", QN 4.749); ("sigma", QN 3.729); ("epsilon_k", QN 253.6291); ("mu", QN 1.6099); ("q", QN 0.0); ("kappa_ab", QN 0.03); ("epsilon_k_ab", QN 2073.3555); ("viscosity", QA [(-1.4657); (-2.71167); (-0.49511); (-0.13491)])];
  mkEntry "nonane" 128.258 [("m", QN 4.2079); ("sigma", QN 3.8448); ("epsilon_k", QN 244.51); ("mu", QN 0.0); ("q", QN 0.0); ("kappa_ab", QN 0.0); ("epsilon_k_ab", QN 0.0); ("viscosity", QA [(-1.4629); (-3.0058); (-0.5842); (-0.1222)])];
  mkEntry "nonylbenzene" 204.356 [("m", QN 5.6327); ("sigma", QN 3.9104); ("epsilon_k", QN 275.8787); ("mu", QN 0.0); ("q", QN 0.0); ("kappa_ab", QN 0.0); ("epsilon_k_ab", QN 0.0); ("viscosity", QA [(-1.7939); (-3.5061); (-0.7608); (-0.1785)])];
  mkEntry "1-octene" 112.215 [("m", QN 3.7424); ("sigma", QN 3.8133); ("epsilon_k", QN 243.02); ("mu", QN 0.0); ("q", QN 0.0); ("kappa_ab", QN 0.0); ("epsilon_k_ab", QN 0.0); ("viscosity", QA [(-1.3495); (-2.8423); (-0.5594); (-0.109)])];
  mkEntry "octacosane" 394.769 [("m", QN 11.4145); ("sigma", QN 3.9318); ("epsilon_k", QN 252.3643); ("mu", QN 0.0); ("q", QN 0.0); ("kappa_ab", QN 0.0); ("epsilon_k_ab", QN 0.0); ("viscosity", QA [(-2.4748); (-5.1281); (-1.2775); (-0.2852)])];
  mkEntry "1-octadecanol" 270.499 [("m", QN 7.3343); ("sigma", QN 3.9962); ("epsilon_k", QN 266.5143); ("mu", QN 1.6608); ("q", QN 0.0); ("kappa_ab", QN 0.03); ("epsilon_k_ab", QN 2150.7482); ("viscosity", QA [(-2.0036); (-3.7363); (-0.8864); (-0.2203)])];
  mkEntry "octadecane" 254.5 [("m", QN 7.3271); ("sigma", QN 3.9668); ("epsilon_k", QN 256.2); ("mu", QN 0.0); ("q", QN 0.0); ("kappa_ab", QN 0.0); ("epsilon_k_ab", QN 0.0); ("viscosity", QA [(-2.0137); (-4.0711); (-0.9298); (-0.2107)])];
  mkEntry "1-octanamine" 129.246 [("m", QN 1.9349); ("sigma", QN 4.9721); ("epsilon_k", QN 315.3046); ("mu", QN 1.421); ("q", QN 0.0); ("kappa_ab", QN 0.03); ("epsilon_k_ab", QN 2476.9879); ("viscosity", QA [(-1.2518); (-2.9995); (-0.9478); (-0.123)])];
  mkEntry "1-octanol" 130.23 [("m", QN 5.7204); ("sigma", QN 3.3562); ("epsilon_k", QN 228.8515); ("mu", QN 1.6488); ("q", QN 0.0); ("kappa_ab", QN 0.03); ("epsilon_k_ab", QN 1869.8446); ("viscosity", QA [(-1.3896); (-2.58867); (-0.28276); (-0.12383)])];
  mkEntry "2-octanol" 130.23 [("m", QN 5.7545); ("sigma", QN 3.3545); ("epsilon_k", QN 220.9018); ("mu", QN 1.6488); ("q", QN 0.0); ("kappa_ab", QN 0.03); ("epsilon_k_ab", QN 1721.3869); ("viscosity", QA [(-1.3845); (-1.1782); 0.3771; (-0.1238)])];
  mkEntry "2-octanone" 128.214 [("m", QN 4.467); ("sigma", QN 3.6222); ("epsilon_k", QN 252.4353); ("mu", QN 2.4613); ("q", QN 0.0); ("kappa_ab", QN 0.0); ("epsilon_k_ab", QN 0.0); ("viscosity", QA [(-1.5078); (-2.842); (-0.5162); (-0.1222)])];
  mkEntry "octane" 114.231 [("m", QN 3.8176); ("sigma", QN 3.8373); ("epsilon_k", QN 242.78); ("mu", QN 0.0); ("q", QN 0.0); ("kappa_ab", QN 0.0); ("epsilon_k_ab", QN 0.0); ("viscosity", QA [(-1.3837); (-2.8569); (-0.5461); (-0.1107)])];
  mkEntry "pentadecane" 212.419 [("m", QN 6.2855); ("sigma", QN 3.9531); ("epsilon_k", QN 254.14); ("mu", QN 0.0); ("q", QN 0.0); ("kappa_ab", QN 0.0); ("epsilon_k_ab", QN 0.0); ("viscosity", QA [(-1.8521); (-3.7647); (-0.8216); (-0.1839)])];
  mkEntry "1-aminopentane" 87.165 [("m", QN 1.6177); ("sigma", QN 4.656); ("epsilon_k", QN 302.1019); ("mu", QN 1.5499); ("q", QN 0.0); ("kappa_ab", QN 0.03); ("epsilon_k_ab", QN 1923.3059); ("viscosity", QA [(-0.9812); (-2.6533); (-0.7457); (-0.0874)])];
  mkEntry "1-pentanol" 88.15 [("m", QN 4.305); ("sigma", QN 3.2421); ("epsilon_k", QN 228.6214); ("mu", QN 1.7); ("q", QN 0.0); ("kappa_ab", QN 0.03); ("epsilon_k_ab", QN 1835.0315); ("viscosity", QA [(-1.1188); (-2.22062); (-0.25493); (-0.08825)])];
  mkEntry "2-pentanol" 88.15 [("m", QN 5.2839); ("sigma", QN 3.0076); ("epsilon_k", QN 200.0793); ("mu", QN 1.6668); ("q", QN 0.0); ("kappa_ab", QN 0.03); ("epsilon_k_ab", QN 1713.2429); ("viscosity", QA [(-1.1043); (-1.0389); 0.4671; (-0.0883)])];
  mkEntry "3-pentanol" 88.15 [("m", QN 4.7983); ("sigma", QN 3.0947); ("epsilon_k", QN 203.9658); ("mu", QN 1.6399); ("q", QN 0.0); ("kappa_ab", QN 0.03); ("epsilon_k_ab", QN 1806.0011); ("viscosity", QA [(-1.1043); (-0.9823); 0.4199; (-0.0883)])];
  mkEntry "3-pentanone" 86.134 [("m", QN 3.2786); ("sigma", QN 3.5159); ("epsilon_k", QN 248.69); ("mu", QN 2.82); ("q", QN 0.0); ("kappa_ab", QN 0.0); ("epsilon_k_ab", QN 0.0); ("viscosity", QA [(-1.2629); (-2.5335); (-0.4528); (-0.0865)])];
  mkEntry "pentane" 72.15 [("m", QN 2.6896); ("sigma", QN 3.7729); ("epsilon_k", QN 231.2); ("mu", QN 0.0); ("q", QN 0.0); ("kappa_ab", QN 0.0); ("epsilon_k_ab", QN 0.0); ("viscosity", QA [(-1.0978); (-2.4577); (-0.4397); (-0.0737)])];
  mkEntry "amyl acetate" 130.187 [("m", QN 4.1066); ("sigma", QN 3.646); ("epsilon_k", QN 249.3581); ("mu", QN 1.7208); ("q", QN 0.0); ("kappa_ab", QN 0.0); ("epsilon_k_ab", QN 0.0); ("viscosity", QA [(-1.4154); (-2.7149); (-0.4738); (-0.1238)])];
  mkEntry "propylene" 42.081 [("m", QN 1.9597); ("sigma", QN 3.5356); ("epsilon_k", QN 207.19); ("mu", QN 0.0); ("q", QN 0.0); ("kappa_ab", QN 0.0); ("epsilon_k_ab", QN 0.0); ("viscosity", QA [(-0.7728); (-1.9599); (-0.2842); (-0.0447)])];
  mkEntry "n-propylamine" 59.111 [("m", QN 3.4083); ("sigma", QN 3.1114); ("epsilon_k", QN 217.4541); ("mu", QN 1.1692); ("q", QN 0.0); ("kappa_ab", QN 0.03); ("epsilon_k_ab", QN 86.0572); ("viscosity", QA [(-0.7383); (-1.7723); (-0.0548); (-0.0614)])];
  mkEntry "1-propanol" 60.096 [("m", QN 3.4604); ("sigma", QN 3.0742); ("epsilon_k", QN 217.3745); ("mu", QN 1.6788); ("q", QN 0.0); ("kappa_ab", QN 0.03); ("epsilon_k_ab", QN 2044.5298); ("viscosity", QA [(-0.8756); (-1.47721); (-0.08931); (-0.06237)])];
  mkEntry "2-propanol" 60.096 [("m", QN 4.0249); ("sigma", QN 2.918); ("epsilon_k", QN 198.5953); ("mu", QN 1.6608); ("q", QN 0.0); ("kappa_ab", QN 0.03); ("epsilon_k_ab", QN 1871.8788); ("viscosity", QA [(-0.847); (-1.0735); 0.2102; (-0.0624)])];
  mkEntry "acetone" 58.08 [("m", QN 2.7447); ("sigma", QN 3.2742); ("epsilon_k", QN 232.99); ("mu", QN 2.88); ("q", QN 0.0); ("kappa_ab", QN 0.0); ("epsilon_k_ab", QN 0.0); ("viscosity", QA [(-1.0551); (-2.22); (-0.3547); (-0.0604)])];
  mkEntry "propanal" 58.08 [("m", QN 2.6001); ("sigma", QN 3.2872); ("epsilon_k", QN 235.21); ("mu", QN 2.72); ("q", QN 0.0); ("kappa_ab", QN 0.0); ("epsilon_k_ab", QN 0.0); ("viscosity", QA [(-0.4766); (-1.3477); (-0.0555); (-0.0604)])];
  mkEntry "propane" 44.097 [("m", QN 2.002); ("sigma", QN 3.6184); ("epsilon_k", QN 208.11); ("mu", QN 0.0); ("q", QN 0.0); ("kappa_ab", QN 0.0); ("epsilon_k_ab", QN 0.0); ("viscosity", QA [(-0.8013); (-1.9972); (-0.2907); (-0.0467)])];
  mkEntry "propyl acetate" 102.133 [("m", QN 3.7658); ("sigma", QN 3.4289); ("epsilon_k", QN 235.42); ("mu", QN 1.78); ("q", QN 0.0); ("kappa_ab", QN 0.0); ("epsilon_k_ab", QN 0.0); ("viscosity", QA [(-1.2543); (-2.2953); (-0.2853); (-0.1005)])];
  mkEntry "propylbenzene" 120.194 [("m", QN 3.3438); ("sigma", QN 3.8438); ("epsilon_k", QN 288.13); ("mu", QN 0.0); ("q", QN 0.0); ("kappa_ab", QN 0.0); ("epsilon_k_ab", QN 0.0); ("viscosity", QA [(-1.3743); (-2.1888); (-0.3417); (-0.1157)])];
  mkEntry "tetracosane" 338.661 [("m", QN 9.7959); ("sigma", QN 3.9384); ("epsilon_k", QN 253.5506); ("mu", QN 0.0); ("q", QN 0.0); ("kappa_ab", QN 0.0); ("epsilon_k_ab", QN 0.0); ("viscosity", QA [(-2.301); (-4.6041); (-1.0303); (-0.2578)])];
  mkEntry "1-tetradecanol" 214.392 [("m", QN 5.9103); ("sigma", QN 3.9832); ("epsilon_k", QN 266.3354); ("mu", QN 1.55); ("q", QN 0.0); ("kappa_ab", QN 0.03); ("epsilon_k_ab", QN 2238.1838); ("viscosity", QA [(-1.7882); (-2.8133); (-0.5546); (-0.1852)])];
  mkEntry "tetradecane" 198.392 [("m", QN 5.9002); ("sigma", QN 3.9396); ("epsilon_k", QN 254.21); ("mu", QN 0.0); ("q", QN 0.0); ("kappa_ab", QN 0.0); ("epsilon_k_ab", QN 0.0); ("viscosity", QA [(-1.7945); (-3.5557); (-0.7385); (-0.1744)])];
  mkEntry "toluene" 92.141 [("m", QN 2.8149); ("sigma", QN 3.7169); ("epsilon_k", QN 285.69); ("mu", QN 0.0); ("q", QN 0.0); ("kappa_ab", QN 0.0); ("epsilon_k_ab", QN 0.0); ("viscosity", QA [(-1.1874); (-2.4505); (-0.4581); (-0.0918)])];
  mkEntry "triacontane" 422.822 [("m", QN 11.4888); ("sigma", QN 4.0142); ("epsilon_k", QN 258.3031); ("mu", QN 0.0); ("q", QN 0.0); ("kappa_ab", QN 0.0); ("epsilon_k_ab", QN 0.0); ("viscosity", QA [(-2.5579); (-4.7635); (-1.0517); (-0.2979)])];
  mkEntry "tricosane" 324.634 [("m", QN 9.3851); ("sigma", QN 3.9416); ("epsilon_k", QN 254.1439); ("mu", QN 0.0); ("q", QN 0.0); ("kappa_ab", QN 0.0); ("epsilon_k_ab", QN 0.0); ("viscosity", QA [(-2.2556); (-4.2312); (-0.8951); (-0.2505)])];
  mkEntry "n-tridecanol" 200.365 [("m", QN 5.5859); ("sigma", QN 3.9862); ("epsilon_k", QN 265.7028); ("mu", QN 1.6488); ("q", QN 0.0); ("kappa_ab", QN 0.03); ("epsilon_k_ab", QN 2212.4364); ("viscosity", QA [(-1.7295); (-2.8003); (-0.5484); (-0.1758)])];
  mkEntry "tridecane" 184.365 [("m", QN 5.6877); ("sigma", QN 3.9143); ("epsilon_k", QN 249.78); ("mu", QN 0.0); ("q", QN 0.0); ("kappa_ab", QN 0.0); ("epsilon_k_ab", QN 0.0); ("viscosity", QA [(-1.7345); (-3.4695); (-0.7043); (-0.1647)])];
  mkEntry "1-undecanol" 172.311 [("m", QN 7.3595); ("sigma", QN 3.38); ("epsilon_k", QN 225.1381); ("mu", QN 1.6698); ("q", QN 0.0); ("kappa_ab", QN 0.03); ("epsilon_k_ab", QN 1888.8681); ("viscosity", QA [(-1.6044); (-3.44231); (-0.5589); (-0.156)])];
  mkEntry "n-undecane" 156.312 [("m", QN 4.9082); ("sigma", QN 3.8893); ("epsilon_k", QN 248.82); ("mu", QN 0.0); ("q", QN 0.0); ("kappa_ab", QN 0.0); ("epsilon_k_ab", QN 0.0); ("viscosity", QA [(-1.6062); (-3.2485); (-0.65); (-0.1441)])]
].

(** parameters/rehner2020.json *)
Definition rehner2020 : list entry := [
  mkEntry "water_2B" 18.01528 [("m", QN 1.0); ("sigma", QN 2.937523956051823); ("epsilon_k", QN 272.02757407828676); ("kappa_ab", QN 0.04448012165716923); ("epsilon_k_ab", QN 3125.3202766200056)];
  mkEntry "water_3B" 18.01528 [("m", QN 1.6330279759286626); ("sigma", QN 2.4570046159550527); ("epsilon_k", QN 238.31794591948915); ("kappa_ab", QN 0.037807044304069184); ("epsilon_k_ab", QN 2749.004567423258); ("na", QN 2)];
  mkEntry "water_4C" 18.01528 [("m", QN 1.8668282082622842); ("sigma", QN 2.395032022200541); ("epsilon_k", QN 169.7751872692369); ("kappa_ab", QN 0.13373757842938191); ("epsilon_k_ab", QN 1772.0393059972052); ("na", QN 2); ("nb", QN 2)];
  mkEntry "water_2B_polar" 18.01528 [("m", QN 1.0); ("sigma", QN 3.0053968064475254); ("epsilon_k", QN 166.6147951235982); ("mu", QN 1.6152087869692175); ("kappa_ab", QN 0.09819448826630345); ("epsilon_k_ab", QN 2667.2518268470913)];
  mkEntry "water_3B_polar" 18.01528 [("m", QN 1.0487827145942152); ("sigma", QN 2.9895654834474055); ("epsilon_k", QN 115.19417276271591); ("mu", QN 1.9373715367486852); ("kappa_ab", QN 0.038235772849856756); ("epsilon_k_ab", QN 2377.871413812318); ("na", QN 2)];
  mkEntry "water_4C_polar" 18.01528 [("m", QN 1.2808374569976761); ("sigma", QN 2.8129248869728167); ("epsilon_k", QN 117.77773610908815); ("mu", QN 1.5050185176397637); ("kappa_ab", QN 0.082906656369032); ("epsilon_k_ab", QN 1784.1459137848506); ("na", QN 2); ("nb", QN 2)];
  mkEntry "methanol" 32.04216 [("m", QN 2.4858111592517935); ("sigma", QN 2.7309279912978557); ("epsilon_k", QN 101.0845669390466); ("kappa_ab", QN 0.11953491759977186); ("epsilon_k_ab", QN 1834.845540500216); ("na", QN 2); ("nb", QN 2)];
  mkEntry "ethanol" 46.06904 [("m", QN 3.0177191329816138); ("sigma", QN 2.9146460964033283); ("epsilon_k", QN 124.58467252505255); ("kappa_ab", QN 0.10067627754508424); ("epsilon_k_ab", QN 1810.4338396651838); ("na", QN 2); ("nb", QN 2)];
  mkEntry "1-propanol" 60.09592 [("m", QN 2.7557896027662503); ("sigma", QN 3.311440076695859); ("epsilon_k", QN 144.37733584205245); ("kappa_ab", QN 0.05810650285845608); ("epsilon_k_ab", QN 1959.8294504365563); ("na", QN 2); ("nb", QN 2)];
  mkEntry "1-butanol" 74.1228 [("m", QN 3.318220777078113); ("sigma", QN 3.3475818564926207); ("epsilon_k", QN 163.6648110273199); ("kappa_ab", QN 0.07216895211562263); ("epsilon_k_ab", QN 1862.0561323915151); ("na", QN 2); ("nb", QN 2)];
  mkEntry "1-pentanol" 88.14968 [("m", QN 3.2860051452076284); ("sigma", QN 3.5782776734658577); ("epsilon_k", QN 179.754303082289); ("kappa_ab", QN 0.0762520371571717); ("epsilon_k_ab", QN 1824.6154575116475); ("na", QN 2); ("nb", QN 2)];
  mkEntry "1-hexanol" 102.1766 [("m", QN 3.3311680900063463); ("sigma", QN 3.7482827652225086); ("epsilon_k", QN 270.86189939448803); ("kappa_ab", QN 0.002566318648210027); ("epsilon_k_ab", QN 2778.9261790720657)];
  mkEntry "1-heptanol" 116.2034 [("m", QN 4.25093612985804); ("sigma", QN 3.620930465025628); ("epsilon_k", QN 252.7630330258869); ("kappa_ab", QN 0.003060843493411822); ("epsilon_k_ab", QN 2700.937487295063)];
  mkEntry "1-octanol" 130.2303 [("m", QN 4.001221642367511); ("sigma", QN 3.8281719743325215); ("epsilon_k", QN 268.72917896983984); ("kappa_ab", QN 0.0031104598923094376); ("epsilon_k_ab", QN 2804.2762044751535)];
  mkEntry "1-nonanol" 144.257 [("m", QN 4.047137615762045); ("sigma", QN 3.942380472821992); ("epsilon_k", QN 278.68277806898686); ("kappa_ab", QN 0.0014907242131781597); ("epsilon_k_ab", QN 3103.6530564736395)];
  mkEntry "1-decanol" 158.2841 [("m", QN 4.185921112037352); ("sigma", QN 4.042094734564122); ("epsilon_k", QN 281.2912655243266); ("kappa_ab", QN 0.002493036173908781); ("epsilon_k_ab", QN 3023.609567972825)];
  mkEntry "1-dodecanol" 186.3378 [("m", QN 5.140293804729545); ("sigma", QN 3.977088533521953); ("epsilon_k", QN 274.5543622578429); ("kappa_ab", QN 0.0012672291257527345); ("epsilon_k_ab", QN 3223.361822388517)];
  mkEntry "2-propanol" 60.09592 [("m", QN 3.7734002553252854); ("sigma", QN 2.9580225196713137); ("epsilon_k", QN 136.16495641117777); ("kappa_ab", QN 0.09762722816926367); ("epsilon_k_ab", QN 1718.8359393009746); ("na", QN 2); ("nb", QN 2)];
  mkEntry "2-butanol" 74.1228 [("m", QN 4.8327476817460235); ("sigma", QN 2.9056637283694267); ("epsilon_k", QN 149.97423748959227); ("kappa_ab", QN 0.16261464675774262); ("epsilon_k_ab", QN 1469.6277485887485); ("na", QN 2); ("nb", QN 2)];
  mkEntry "2-pentanol" 88.14968 [("m", QN 4.2949907034388595); ("sigma", QN 3.2253888374771633); ("epsilon_k", QN 159.24901703474268); ("kappa_ab", QN 0.0787091926637352); ("epsilon_k_ab", QN 1771.398524849797); ("na", QN 2); ("nb", QN 2)];
  mkEntry "3-pentanol" 88.15 [("m", QN 4.509382495395084); ("sigma", QN 3.1583304901996687); ("epsilon_k", QN 162.73433804276743); ("kappa_ab", QN 0.12199296128478557); ("epsilon_k_ab", QN 1516.0966359637514); ("na", QN 2); ("nb", QN 2)];
  mkEntry "1,2-ethanediol" 62.06844 [("m", QN 2.206326914593148); ("sigma", QN 3.3447087805531535); ("epsilon_k", QN 211.90069259634961); ("kappa_ab", QN 0.041207808637705026); ("epsilon_k_ab", QN 2550.2519514335218); ("na", QN 2); ("nb", QN 2)];
  mkEntry "1,2-propanediol" 76.09532 [("m", QN 3.485594322858587); ("sigma", QN 3.083720347164495); ("epsilon_k", QN 183.09717953416344); ("kappa_ab", QN 0.08499573407848357); ("epsilon_k_ab", QN 2268.8453113675146); ("na", QN 2); ("nb", QN 2)];
  mkEntry "glycerol" 92.09472 [("m", QN 2.294072668747126); ("sigma", QN 3.6606590687653835); ("epsilon_k", QN 299.7826857254255); ("kappa_ab", QN 0.019561736415810844); ("epsilon_k_ab", QN 3069.7332849899476); ("na", QN 2); ("nb", QN 2)]
].

(** parameters/sauer2014_homo.json *)
Definition sauer2014_homo : list entry := [
  mkEntry "CH3" 15.0345 [("m", QN 0.61198); ("sigma", QN 3.7202); ("epsilon_k", QN 229.90)];
  mkEntry "CH2" 14.02658 [("m", QN 0.45606); ("sigma", QN 3.8900); ("epsilon_k", QN 239.01)];
  mkEntry ">CH" 13.01854 [("m", QN 0.14304); ("sigma", QN 4.8597); ("epsilon_k", QN 347.64)];
  mkEntry ">C<" 12.0107 [("m", QN (-0.66997)); ("sigma", QN (-1.7878)); ("epsilon_k", QN 107.68)];
  mkEntry "=CH2" 14.02658 [("m", QN 0.36939); ("sigma", QN 4.0264); ("epsilon_k", QN 289.49)];
  mkEntry "=CH" 13.01854 [("m", QN 0.56361); ("sigma", QN 3.5519); ("epsilon_k", QN 216.69)];
  mkEntry "=C<" 12.0107 [("m", QN 0.86367); ("sigma", QN 3.1815); ("epsilon_k", QN 156.31)];
  mkEntry "C≡CH" 25.02924 [("m", QN 1.3279); ("sigma", QN 2.9421); ("epsilon_k", QN 223.05)];
  mkEntry "CH2_hex" 14.02658 [("m", QN 0.39496); ("sigma", QN 3.9126); ("epsilon_k", QN 289.03)];
  mkEntry "CH_hex" 13.01854 [("m", QN 0.02880); ("sigma", QN 8.9779); ("epsilon_k", QN 1306.7)];
  mkEntry "CH2_pent" 14.02658 [("m", QN 0.46742); ("sigma", QN 3.7272); ("epsilon_k", QN 267.16)];
  mkEntry "CH_pent" 13.01854 [("m", QN 0.03314); ("sigma", QN 7.7190); ("epsilon_k", QN 1297.7)];
  mkEntry "CH_arom" 13.01854 [("m", QN 0.42335); ("sigma", QN 3.7270); ("epsilon_k", QN 274.41)];
  mkEntry "C_arom" 12.0107 [("m", QN 0.15371); ("sigma", QN 3.9622); ("epsilon_k", QN 527.20)];
  mkEntry "CH=O" 29.01754 [("m", QN 1.5774); ("sigma", QN 2.8035); ("epsilon_k", QN 242.99); ("mu", QN 2.4556)];
  mkEntry ">C=O" 28.0097 [("m", QN 1.2230); ("sigma", QN 2.8124); ("epsilon_k", QN 249.04); ("mu", QN 3.2432)];
  mkEntry "OCH3" 31.03322 [("m", QN 1.6539); ("sigma", QN 3.0697); ("epsilon_k", QN 196.05); ("mu", QN 1.3866)];
  mkEntry "OCH2" 30.02538 [("m", QN 1.1349); ("sigma", QN 3.2037); ("epsilon_k", QN 187.13); ("mu", QN 2.7440)];
  mkEntry "HCOO" 45.01654 [("m", QN 1.7525); ("sigma", QN 2.9043); ("epsilon_k", QN 229.63); ("mu", QN 2.7916)];
  mkEntry "COO" 44.0087 [("m", QN 1.5063); ("sigma", QN 2.8166); ("epsilon_k", QN 222.52); ("mu", QN 3.1652)];
  mkEntry "OH" 17.00734 [("m", QN 0.40200); ("sigma", QN 3.2859); ("epsilon_k", QN 488.66); ("epsilon_k_ab", QN 2517.0); ("kappa_ab", QN 0.006825)];
  mkEntry "NH2" 16.02238 [("m", QN 0.40558); ("sigma", QN 3.6456); ("epsilon_k", QN 467.59); ("epsilon_k_ab", QN 1064.6); ("kappa_ab", QN 0.026662)]
].

(** parameters/loetgeringlin2015_homo.json *)
Definition loetgeringlin2015_homo : list entry := [
  mkEntry "CH3" 15.0345 [("m", QN 0.61198); ("sigma", QN 3.7202); ("epsilon_k", QN 229.90); ("viscosity", QA [(-8.6878e-3); (-1.7951e-1); (-12.2359e-2); (-0.01245)])];
  mkEntry "CH2" 14.02658 [("m", QN 0.45606); ("sigma", QN 3.8900); ("epsilon_k", QN 239.01); ("viscosity", QA [(-0.9194e-3); (-1.3316e-1); (-4.2657e-2); (-0.01245)])];
  mkEntry ">CH" 13.01854 [("m", QN 0.14304); ("sigma", QN 4.8597); ("epsilon_k", QN 347.64); ("viscosity", QA [12.8159e-3; (-0.3416e-1); 5.5752e-2; (-0.01245)])];
  mkEntry ">C<" 12.0107 [("m", QN (-0.66997)); ("sigma", QN (-1.7878)); ("epsilon_k", QN 107.68); ("viscosity", QA [152.5629e-3; 12.3998e-1; 13.8406e-2; (-0.01245)])];
  mkEntry "=CH2" 14.02658 [("m", QN 0.36939); ("sigma", QN 4.0264); ("epsilon_k", QN 289.49); ("viscosity", QA [(-6.3736e-3); 42.4367e-1; (-10.8726e-2); (-0.01245)])];
  mkEntry "=CH" 13.01854 [("m", QN 0.56361); ("sigma", QN 3.5519); ("epsilon_k", QN 216.69); ("viscosity", QA [(-5.0637e-3); (-43.5678e-1); (-5.4247e-2); (-0.01245)])];
  mkEntry "=C<" 12.0107 [("m", QN 0.86367); ("sigma", QN 3.1815); ("epsilon_k", QN 156.31)];
  mkEntry "C≡CH" 25.02924 [("m", QN 1.3279); ("sigma", QN 2.9421); ("epsilon_k", QN 223.05)];
  mkEntry "CH2_hex" 14.02658 [("m", QN 0.39496); ("sigma", QN 3.9126); ("epsilon_k", QN 289.03); ("viscosity", QA [(-3.7896e-3); (-1.4796e-1); (-4.5017e-2); (-0.01245)])];
  mkEntry "CH_hex" 13.01854 [("m", QN 0.02880); ("sigma", QN 8.9779); ("epsilon_k", QN 1306.7)];
  mkEntry "CH2_pent" 14.02658 [("m", QN 0.46742); ("sigma", QN 3.7272); ("epsilon_k", QN 267.16); ("viscosity", QA [(-3.8105e-3); (-1.628e-1); (-6.7905e-2); (-0.01245)])];
  mkEntry "CH_pent" 13.01854 [("m", QN 0.03314); ("sigma", QN 7.7190); ("epsilon_k", QN 1297.7)];
  mkEntry "CH_arom" 13.01854 [("m", QN 0.42335); ("sigma", QN 3.7270); ("epsilon_k", QN 274.41); ("viscosity", QA [(-4.7664e-3); (-1.6842e-1); (-6.5606e-2); (-0.01245)])];
  mkEntry "C_arom" 12.0107 [("m", QN 0.15371); ("sigma", QN 3.9622); ("epsilon_k", QN 527.20); ("viscosity", QA [14.428e-3; 0.1104e-1; (-0.0699e-2); (-0.01245)])];
  mkEntry "CH=O" 29.01754 [("m", QN 1.5774); ("sigma", QN 2.8035); ("epsilon_k", QN 242.99); ("mu", QN 2.4556); ("viscosity", QA [8.8675e-3; (-1.482e-1); (-9.1325e-2); (-0.01245)])];
  mkEntry ">C=O" 28.0097 [("m", QN 1.2230); ("sigma", QN 2.8124); ("epsilon_k", QN 249.04); ("mu", QN 3.2432)];
  mkEntry "OCH3" 31.03322 [("m", QN 1.6539); ("sigma", QN 3.0697); ("epsilon_k", QN 196.05); ("mu", QN 1.3866); ("viscosity", QA [(-4.6001e-3); (-1.6433e-1); (-5.3118e-2); (-0.01245)])];
  mkEntry "OCH2" 30.02538 [("m", QN 1.1349); ("sigma", QN 3.2037); ("epsilon_k", QN 187.13); ("mu", QN 2.7440); ("viscosity", QA [(-5.5435e-3); (-2.2345e-1); (-9.9967e-2); (-0.01245)])];
  mkEntry "HCOO" 45.01654 [("m", QN 1.7525); ("sigma", QN 2.9043); ("epsilon_k", QN 229.63); ("mu", QN 2.7916)];
  mkEntry "COO" 44.0087 [("m", QN 1.5063); ("sigma", QN 2.8166); ("epsilon_k", QN 222.52); ("mu", QN 3.1652); ("viscosity", QA [(-0.3295e-3); (-1.1893e-1); 6.9576e-2; (-0.01245)])];
  mkEntry "OH" 17.00734 [("m", QN 0.40200); ("sigma", QN 3.2859); ("epsilon_k", QN 488.66); ("epsilon_k_ab", QN 2517.0); ("kappa_ab", QN 0.006825); ("viscosity", QA [(-15.7583e-3); (-2.5654e-1); (-23.1537e-2); (-0.01245)])];
  mkEntry "NH2" 16.02238 [("m", QN 0.40558); ("sigma", QN 3.6456); ("epsilon_k", QN 467.59); ("epsilon_k_ab", QN 1064.6); ("kappa_ab", QN 0.026662); ("viscosity", QA [(-4.4048e-3); (-0.6089e-1); (-8.9017e-2); (-0.01245)])]
].

(** parameters/sauer2014_hetero.json *)
Definition sauer2014_hetero : list entry := [
  mkEntry "CH3" 15.0345 [("m", QN 0.77247); ("sigma", QN 3.6937); ("epsilon_k", QN 181.49)];
  mkEntry "CH2" 14.02658 [("m", QN 0.7912); ("sigma", QN 3.0207); ("epsilon_k", QN 157.23)];
  mkEntry ">CH" 13.01854 [("m", QN 0.52235); ("sigma", QN 0.99912); ("epsilon_k", QN 269.84)];
  mkEntry ">C<" 12.0107 [("m", QN (-0.70131)); ("sigma", QN 0.54350); ("epsilon_k", QN 0.0)];
  mkEntry "=CH2" 14.02658 [("m", QN 0.70581); ("sigma", QN 3.1630); ("epsilon_k", QN 171.34)];
  mkEntry "=CH" 13.01854 [("m", QN 0.90182); ("sigma", QN 2.8864); ("epsilon_k", QN 158.90)];
  mkEntry "=C<" 12.0107 [("m", QN 0.98505); ("sigma", QN 2.2450); ("epsilon_k", QN 146.86)];
  mkEntry "C≡CH" 25.02924 [("m", QN 1.1615); ("sigma", QN 3.3187); ("epsilon_k", QN 255.13)];
  mkEntry "CH2_hex" 14.02658 [("m", QN 0.87930); ("sigma", QN 2.9995); ("epsilon_k", QN 157.93)];
  mkEntry "CH_hex" 13.01854 [("m", QN 0.42115); ("sigma", QN 1.3078); ("epsilon_k", QN 131.79)];
  mkEntry "CH2_pent" 14.02658 [("m", QN 0.90057); ("sigma", QN 3.0437); ("epsilon_k", QN 158.34)];
  mkEntry "CH_pent" 13.01854 [("m", QN 0.69343); ("sigma", QN 1.2894); ("epsilon_k", QN 140.69)];
  mkEntry "CH_arom" 13.01854 [("m", QN 0.88259); ("sigma", QN 2.9475); ("epsilon_k", QN 156.51)];
  mkEntry "C_arom" 12.0107 [("m", QN 0.77531); ("sigma", QN 1.6719); ("epsilon_k", QN 178.81)];
  mkEntry "CH=O" 29.01754 [("m", QN 1.1889); ("sigma", QN 3.2948); ("epsilon_k", QN 316.91); ("mu", QN 2.4126)];
  mkEntry ">C=O" 28.0097 [("m", QN 1.1889); ("sigma", QN 3.1026); ("epsilon_k", QN 280.43); ("mu", QN 3.4167)];
  mkEntry "OCH3" 31.03322 [("m", QN 1.1907); ("sigma", QN 2.7795); ("epsilon_k", QN 284.91); ("mu", QN 0.000)];
  mkEntry "OCH2" 30.02538 [("m", QN 1.1817); ("sigma", QN 3.0090); ("epsilon_k", QN 203.11); ("mu", QN 2.6945)];
  mkEntry "HCOO" 45.01654 [("m", QN 1.2789); ("sigma", QN 3.3730); ("epsilon_k", QN 307.44); ("mu", QN 2.6808)];
  mkEntry "COO" 44.0087 [("m", QN 1.2869); ("sigma", QN 3.0643); ("epsilon_k", QN 273.90); ("mu", QN 3.3428)];
  mkEntry "OH" 17.00734 [("m", QN 1.0231); ("sigma", QN 2.7702); ("epsilon_k", QN 334.29); ("epsilon_k_ab", QN 2575.9); ("kappa_ab", QN 0.009583)];
  mkEntry "NH2" 16.02238 [("m", QN 0.82284); ("sigma", QN 3.1129); ("epsilon_k", QN 309.93); ("epsilon_k_ab", QN 1471.5); ("kappa_ab", QN 0.005769)]
].

(** parameters/gc_substances.json (bonds, where present, are not used by this crate) *)
Definition gc_substances : list molecule := [
  mkMolecule "methanol" ["CH3"; "OH"];
  mkMolecule "ethanol" ["CH3"; "CH2"; "OH"];
  mkMolecule "1-propanol" ["CH3"; "CH2"; "CH2"; "OH"];
  mkMolecule "1-butanol" ["CH3"; "CH2"; "CH2"; "CH2"; "OH"];
  mkMolecule "1-pentanol" ["CH3"; "CH2"; "CH2"; "CH2"; "CH2"; "OH"];
  mkMolecule "1-hexanol" ["CH3"; "CH2"; "CH2"; "CH2"; "CH2"; "CH2"; "OH"];
  mkMolecule "1-heptanol" ["CH3"; "CH2"; "CH2"; "CH2"; "CH2"; "CH2"; "CH2"; "OH"];
  mkMolecule "1-octanol" ["CH3"; "CH2"; "CH2"; "CH2"; "CH2"; "CH2"; "CH2"; "CH2"; "OH"];
  mkMolecule "1-nonanol" ["CH3"; "CH2"; "CH2"; "CH2"; "CH2"; "CH2"; "CH2"; "CH2"; "CH2"; "OH"];
  mkMolecule "2-propanol" ["CH3"; ">CH"; "OH"; "CH3"];
  mkMolecule "2-methyl-2-butanol" ["CH3"; "CH2"; ">C<"; "CH3"; "CH3"; "OH"];
  mkMolecule "methylamine" ["CH3"; "NH2"];
  mkMolecule "ethylamine" ["CH3"; "CH2"; "NH2"];
  mkMolecule "1-propylamine" ["CH3"; "CH2"; "CH2"; "NH2"];
  mkMolecule "2-propylamine" ["CH3"; ">CH"; "CH3"; "NH2"];
  mkMolecule "aniline" ["CH_arom"; "CH_arom"; "CH_arom"; "CH_arom"; "CH_arom"; "C_arom"; "NH2"];
  mkMolecule "acetic acid" ["HCOO"; "CH3"];
  mkMolecule "ethane" ["CH3"; "CH3"];
  mkMolecule "propane" ["CH3"; "CH2"; "CH3"];
  mkMolecule "butane" ["CH3"; "CH2"; "CH2"; "CH3"];
  mkMolecule "pentane" ["CH3"; "CH2"; "CH2"; "CH2"; "CH3"];
  mkMolecule "hexane" ["CH3"; "CH2"; "CH2"; "CH2"; "CH2"; "CH3"];
  mkMolecule "heptane" ["CH3"; "CH2"; "CH2"; "CH2"; "CH2"; "CH2"; "CH3"];
  mkMolecule "octane" ["CH3"; "CH2"; "CH2"; "CH2"; "CH2"; "CH2"; "CH2"; "CH3"];
  mkMolecule "nonane" ["CH3"; "CH2"; "CH2"; "CH2"; "CH2"; "CH2"; "CH2"; "CH2"; "CH3"];
  mkMolecule "decane" ["CH3"; "CH2"; "CH2"; "CH2"; "CH2"; "CH2"; "CH2"; "CH2"; "CH2"; "CH3"];
  mkMolecule "undecane" ["CH3"; "CH2"; "CH2"; "CH2"; "CH2"; "CH2"; "CH2"; "CH2"; "CH2"; "CH2"; "CH3"];
  mkMolecule "dodecane" ["CH3"; "CH2"; "CH2"; "CH2"; "CH2"; "CH2"; "CH2"; "CH2"; "CH2"; "CH2"; "CH2"; "CH3"];
  mkMolecule "tridecane" ["CH3"; "CH2"; "CH2"; "CH2"; "CH2"; "CH2"; "CH2"; "CH2"; "CH2"; "CH2"; "CH2"; "CH2"; "CH3"];
  mkMolecule "tetradecane" ["CH3"; "CH2"; "CH2"; "CH2"; "CH2"; "CH2"; "CH2"; "CH2"; "CH2"; "CH2"; "CH2"; "CH2"; "CH2"; "CH3"];
  mkMolecule "pentadecane" ["CH3"; "CH2"; "CH2"; "CH2"; "CH2"; "CH2"; "CH2"; "CH2"; "CH2"; "CH2"; "CH2"; "CH2"; "CH2"; "CH2"; "CH3"];
  mkMolecule "hexadecane" ["CH3"; "CH2"; "CH2"; "CH2"; "CH2"; "CH2"; "CH2"; "CH2"; "CH2"; "CH2"; "CH2"; "CH2"; "CH2"; "CH2"; "CH2"; "CH3"];
  mkMolecule "heptadecane" ["CH3"; "CH2"; "CH2"; "CH2"; "CH2"; "CH2"; "CH2"; "CH2"; "CH2"; "CH2"; "CH2"; "CH2"; "CH2"; "CH2"; "CH2"; "CH2"; "CH3"];
  mkMolecule "octadecane" ["CH3"; "CH2"; "CH2"; "CH2"; "CH2"; "CH2"; "CH2"; "CH2"; "CH2"; "CH2"; "CH2"; "CH2"; "CH2"; "CH2"; "CH2"; "CH2"; "CH2"; "CH3"];
  mkMolecule "nonadecane" ["CH3"; "CH2"; "CH2"; "CH2"; "CH2"; "CH2"; "CH2"; "CH2"; "CH2"; "CH2"; "CH2"; "CH2"; "CH2"; "CH2"; "CH2"; "CH2"; "CH2"; "CH2"; "CH3"];
  mkMolecule "eicosane" ["CH3"; "CH2"; "CH2"; "CH2"; "CH2"; "CH2"; "CH2"; "CH2"; "CH2"; "CH2"; "CH2"; "CH2"; "CH2"; "CH2"; "CH2"; "CH2"; "CH2"; "CH2"; "CH2"; "CH3"];
  mkMolecule "isobutane" [">CH"; "CH3"; "CH3"; "CH3"];
  mkMolecule "isopentane" ["CH3"; ">CH"; "CH2"; "CH3"; "CH3"];
  mkMolecule "neopentane" [">C<"; "CH3"; "CH3"; "CH3"; "CH3"];
  mkMolecule "2-methylpentane" ["CH3"; ">CH"; "CH2"; "CH2"; "CH3"; "CH3"];
  mkMolecule "2,2-dimethylbutane" ["CH3"; ">C<"; "CH2"; "CH3"; "CH3"; "CH3"];
  mkMolecule "2,3-dimethylbutane" ["CH3"; ">CH"; ">CH"; "CH3"; "CH3"; "CH3"];
  mkMolecule "3-methylpentane" ["CH3"; "CH2"; ">CH"; "CH2"; "CH3"; "CH3"];
  mkMolecule "2-methylhexane" ["CH3"; ">CH"; "CH2"; "CH2"; "CH2"; "CH3"; "CH3"];
  mkMolecule "cyclopentane" ["CH2_pent"; "CH2_pent"; "CH2_pent"; "CH2_pent"; "CH2_pent"];
  mkMolecule "cyclohexane" ["CH2_hex"; "CH2_hex"; "CH2_hex"; "CH2_hex"; "CH2_hex"; "CH2_hex"];
  mkMolecule "methylcyclopentane" ["CH2_pent"; "CH2_pent"; "CH2_pent"; "CH2_pent"; "CH_pent"; "CH3"];
  mkMolecule "methylcyclohexane" ["CH2_hex"; "CH2_hex"; "CH2_hex"; "CH2_hex"; "CH2_hex"; "CH_hex"; "CH3"];
  mkMolecule "ethylcyclopentane" ["CH2_pent"; "CH2_pent"; "CH2_pent"; "CH2_pent"; "CH_pent"; "CH2"; "CH3"];
  mkMolecule "ethylcyclohexane" ["CH2_hex"; "CH2_hex"; "CH2_hex"; "CH2_hex"; "CH2_hex"; "CH_hex"; "CH2"; "CH3"];
  mkMolecule "ethylene" ["=CH2"; "=CH2"];
  mkMolecule "propylene" ["=CH2"; "=CH"; "CH3"];
  mkMolecule "1-butene" ["=CH2"; "=CH"; "CH2"; "CH3"];
  mkMolecule "1-pentene" ["=CH2"; "=CH"; "CH2"; "CH2"; "CH3"];
  mkMolecule "1-hexene" ["=CH2"; "=CH"; "CH2"; "CH2"; "CH2"; "CH3"];
  mkMolecule "1-octene" ["=CH2"; "=CH"; "CH2"; "CH2"; "CH2"; "CH2"; "CH2"; "CH3"];
  mkMolecule "cyclopentene" ["CH2_pent"; "CH2_pent"; "CH2_pent"; "CH_pent"; "CH_pent"];
  mkMolecule "benzene" ["CH_arom"; "CH_arom"; "CH_arom"; "CH_arom"; "CH_arom"; "CH_arom"];
  mkMolecule "toluene" ["CH_arom"; "CH_arom"; "CH_arom"; "CH_arom"; "CH_arom"; "C_arom"; "CH3"];
  mkMolecule "ethylbenzene" ["CH_arom"; "CH_arom"; "CH_arom"; "CH_arom"; "CH_arom"; "C_arom"; "CH2"; "CH3"];
  mkMolecule "m-xylene" ["CH_arom"; "C_arom"; "CH_arom"; "CH_arom"; "CH_arom"; "C_arom"; "CH3"; "CH3"];
  mkMolecule "o-xylene" ["CH_arom"; "CH_arom"; "CH_arom"; "CH_arom"; "C_arom"; "C_arom"; "CH3"; "CH3"];
  mkMolecule "p-xylene" ["C_arom"; "CH_arom"; "CH_arom"; "C_arom"; "CH_arom"; "CH_arom"; "CH3"; "CH3"];
  mkMolecule "n-propylbenzene" ["CH_arom"; "CH_arom"; "CH_arom"; "CH_arom"; "CH_arom"; "C_arom"; "CH2"; "CH2"; "CH3"];
  mkMolecule "tetralin" ["CH_arom"; "CH_arom"; "CH_arom"; "CH_arom"; "C_arom"; "C_arom"; "CH2_hex"; "CH2_hex"; "CH2_hex"; "CH2_hex"];
  mkMolecule "n-butylbenzene" ["CH_arom"; "CH_arom"; "CH_arom"; "CH_arom"; "CH_arom"; "C_arom"; "CH2"; "CH2"; "CH2"; "CH3"];
  mkMolecule "biphenyl" ["CH_arom"; "CH_arom"; "CH_arom"; "CH_arom"; "CH_arom"; "C_arom"; "C_arom"; "CH_arom"; "CH_arom"; "CH_arom"; "CH_arom"; "CH_arom"];
  mkMolecule "dimethyl ether" ["CH3"; "OCH3"];
  mkMolecule "diethyl ether" ["CH3"; "OCH2"; "CH2"; "CH3"];
  mkMolecule "methyl n-propyl ether" ["OCH3"; "CH2"; "CH2"; "CH3"];
  mkMolecule "methyl methanoate" ["HCOO"; "CH3"];
  mkMolecule "ethyl methanoate" ["HCOO"; "CH2"; "CH3"];
  mkMolecule "propyl methanoate" ["HCOO"; "CH2"; "CH2"; "CH3"];
  mkMolecule "ethyl ethanoate" ["CH3"; "COO"; "CH2"; "CH3"];
  mkMolecule "propyl ethanoate" ["CH3"; "COO"; "CH2"; "CH2"; "CH3"];
  mkMolecule "n-butyl ethanoate" ["CH3"; "COO"; "CH2"; "CH2"; "CH2"; "CH3"];
  mkMolecule "isopropyl ethanoate" ["CH3"; "CH2"; "COO"; "CH3"; "CH3"];
  mkMolecule "methyl propanoate" ["CH3"; "CH2"; "COO"; "CH3"];
  mkMolecule "ethyl propanoate" ["CH3"; "CH2"; "COO"; "CH2"; "CH3"];
  mkMolecule "propyl propanoate" ["CH3"; "CH2"; "COO"; "CH2"; "CH2"; "CH3"];
  mkMolecule "methyl butanoate" ["CH3"; "CH2"; "CH2"; "COO"; "CH3"];
  mkMolecule "acetone" ["CH3"; ">C=O"; "CH3"];
  mkMolecule "butanone" ["CH3"; ">C=O"; "CH2"; "CH3"];
  mkMolecule "2-pentanone" ["CH3"; "CH2"; "CH2"; ">C=O"; "CH3"];
  mkMolecule "3-pentanone" ["CH3"; "CH2"; ">C=O"; "CH2"; "CH3"];
  mkMolecule "propanal" ["CH3"; "CH2"; "CH=O"];
  mkMolecule "butanal" ["CH3"; "CH2"; "CH2"; "CH=O"];
  mkMolecule "methyl methanoate" ["HCOO"; "CH3"];
  mkMolecule "ethyl methanoate" ["HCOO"; "CH2"; "CH3"];
  mkMolecule "propyl methanoate" ["HCOO"; "CH2"; "CH2"; "CH3"];
  mkMolecule "ethyl ethanoate" ["CH3"; "COO"; "CH2"; "CH3"];
  mkMolecule "propyl ethanoate" ["CH3"; "COO"; "CH2"; "CH2"; "CH3"];
  mkMolecule "n-butyl ethanoate" ["CH3"; "COO"; "CH2"; "CH2"; "CH2"; "CH3"];
  mkMolecule "methyl propanoate" ["CH3"; "CH2"; "COO"; "CH3"];
  mkMolecule "ethyl propanoate" ["CH3"; "CH2"; "COO"; "CH2"; "CH3"];
  mkMolecule "propyl propanoate" ["CH3"; "CH2"; "COO"; "CH2"; "CH2"; "CH3"];
  mkMolecule "methyl butanoate" ["CH3"; "CH2"; "CH2"; "COO"; "CH3"];
  mkMolecule "dimethyl ether" ["CH3"; "OCH3"];
  mkMolecule "methyl ethyl ether" ["CH3"; "CH2"; "OCH3"];
  mkMolecule "methyl n-propyl ether" ["OCH3"; "CH2"; "CH2"; "CH3"];
  mkMolecule "diethyl ether" ["CH3"; "OCH2"; "CH2"; "CH3"];
  mkMolecule "ethylene" ["=CH2"; "=CH2"]
].
