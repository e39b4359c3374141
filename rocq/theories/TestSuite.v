(** TestSuite.v: the repository's own tests (/repo/tests), run in the model.  These are examples, not
    properties: they validate the model, as its functions, applied to the test's inputs, give what
    the test expects.  Decimal literals are read by the model's own conversion (C88: the nearest
    double).  Not here: the int test of test_math.cpp (PropIntInvEx.v: its div is undefined),
    test_complex.cpp and test_memory.cpp, which check nothing,
    and test_read_write_file.cpp, whose data are random. *)
From Coq Require Import ZArith Bool SpecFloat List String.
From Verif Require Import Scalar Linalg Control Ints Float FloatIO IO Complex FloatLoop PropFloat IntInv PropIntInvEx.
Import ListNotations.
Local Open Scope nat_scope.

(** malg::all(A == B). *)
Definition all_eq {T} (O : Ops T) (A B : MB T) : Res bool := let* e := @m_eq T O A B in all_m (mb_of_mat e).
Definition all_eqv {T} (O : Ops T) (a b : list T) : Res bool := let* e := @v_eq T O a b in all_v e.
(** Each [if (!check) return 1;]; then [return 0;]. *)
Fixpoint checks (l : list (Res bool)) : Res Z :=
  match l with nil => Ok 0%Z | c :: l => let* b := c in if negb b then Ok 1%Z else checks l end.
Definition D6 : Ops double := fops tol6.
Definition D4 : Ops double := fops (lit "1e-04").
Definition dmat (ll : list (list string)) : Res (Matrix double) := @mat_of_nested _ D6 (map (map lit) ll).
Definition dvec (l : list string) : Res (list double) := @vec_of_list _ D6 (map lit l).
Definition int : Ops (option Z) := sops 32.
Definition zmat (ll : list (list Z)) : Res (Matrix (option Z)) := @mat_of_nested _ int (map (map Some) ll).
Definition zvec (l : list Z) : Res (list (option Z)) := @vec_of_list _ int (map Some l).

(** * test_math.cpp *)
(** test_math.cpp:6-77, without the last check. *)
Definition ti_a := zmat [[-77; 43; 81; -60; -33]; [-95; -40; 14; 41; 13]; [0; 41; 93; -89; -17]; [-60; 1; -74; -53; 69]; [-9; 10; -89; 30; -72]]%Z.
Definition ti_b := zmat [[67; 38; 34; 88; 28]; [0; -12; -12; 42; -69]; [20; -54; 15; -27; -20]; [77; 16; 54; -18; 18]; [-8; 93; 88; -40; -9]]%Z.
Definition ti_sum := zmat [[-10; 81; 115; 28; -5]; [-95; -52; 2; 83; -56]; [20; -13; 108; -116; -37]; [17; 17; -20; -71; 87]; [-17; 103; -1; -10; -81]]%Z.
Definition ti_sub := zmat [[-144; 5; 47; -148; -61]; [-95; -28; 26; -1; 82]; [-20; 95; 78; -62; 3]; [-137; -15; -128; -35; 51]; [-1; -83; -177; 70; -63]]%Z.
Definition ti_mul := zmat [[-7895; -11845; -8063; -4757; -7526]; [-3032; -2021; 818; -11676; 441]; [-4857; -8519; -5399; 1493; -6138]; [-10133; 7273; 48; -5046; -1844]; [503; -1872; -6477; 4371; 2026]]%Z.
Definition ti_div := dmat
  [["-0.724101333"; "0.959172965"; "-3.50660292"; "3.52737442"; "-3.30035297"];
   ["-3.87515054"; "3.01491411"; "-6.44053984"; "7.70150764"; "-2.09035033"];
   ["0.609014897"; "0.368501698"; "-1.70527853"; "-0.311900352"; "-2.16473747"];
   ["1.87805156"; "1.93870341"; "2.98797968"; "-0.462939925"; "1.27233358"];
   ["2.98660079"; "-4.03525548"; "5.63094744"; "-3.59205073"; "1.89608685"]]%string.
Definition test_int : Res Z :=
  let* a := ti_a in let* b := ti_b in let* sum := ti_sum in let* sub := ti_sub in let* mul := ti_mul in
  let a := mb_of_mat a in let b := mb_of_mat b in
  checks [let* r := @m_add _ int a b in all_eq int (mb_of_mat r) (mb_of_mat sum);
          let* r := @m_sub _ int a b in all_eq int (mb_of_mat r) (mb_of_mat sub);
          let* r := @m_mul _ int a b in all_eq int (mb_of_mat r) (mb_of_mat mul)].
Example test_int_passes : test_int = Ok 0%Z.
Proof. vm_compute. reflexivity. Qed.
(** test_math.cpp:79-131. *)
Definition td_a := dmat
  [["-37.2013365"; "-68.6581972"; "41.3047901"; "39.1891392"; "-83.7775724"];
   ["-29.4343112"; "19.2121221"; "-92.9539817"; "79.2170016"; "87.7778305"];
   ["-17.6058458"; "-4.69375854"; "22.4131617"; "67.8548823"; "-72.9728209"];
   ["82.8826396"; "-23.414967"; "-63.2745926"; "99.0710991"; "-39.0158564"];
   ["-32.7507545"; "-20.9186668"; "-0.269948579"; "27.4472885"; "-97.0661874"]]%string.
Definition td_b := dmat
  [["-37.4315122"; "-46.8778636"; "98.621834"; "64.875136"; "-82.3723058"];
   ["-19.5194821"; "-29.6733099"; "27.642446"; "-66.8425277"; "18.3564081"];
   ["-56.4430537"; "-85.474696"; "44.795422"; "44.2905858"; "-2.45158714"];
   ["27.0582983"; "-64.0869579"; "11.8315765"; "58.6659616"; "-95.9791052"];
   ["-33.592816"; "37.7442705"; "6.9947062"; "90.3429215"; "9.45861974"]]%string.
Definition td_sum := dmat
  [["-74.6328488"; "-115.536061"; "139.926624"; "104.064275"; "-166.149878"];
   ["-48.9537934"; "-10.4611878"; "-65.3115357"; "12.374474"; "106.134239"];
   ["-74.0488995"; "-90.1684545"; "67.2085837"; "112.145468"; "-75.424408"];
   ["109.940938"; "-87.501925"; "-51.4430161"; "157.737061"; "-134.994962"];
   ["-66.3435705"; "16.8256037"; "6.72475762"; "117.79021"; "-87.6075677"]]%string.
Definition td_sub := dmat
  [["0.230175709"; "-21.7803337"; "-57.3170439"; "-25.6859969"; "-1.40526653"];
   ["-9.91482914"; "48.885432"; "-120.596428"; "146.059529"; "69.4214224"];
   ["38.8372079"; "80.7809375"; "-22.3822602"; "23.5642965"; "-70.5212337"];
   ["55.8243412"; "40.6719909"; "-75.1061691"; "40.4051375"; "56.9632487"];
   ["0.84206149"; "-58.6629372"; "-7.26465478"; "-62.8956329"; "-106.524807"]]%string.
Definition td_mul := dmat
  [["4276.02224"; "-5422.91529"; "-3838.80925"; "-1264.38308"; "-2850.97902"];
   ["5168.13944"; "6991.27723"; "-4984.46639"; "5266.71917"; "-3767.79738"];
   ["3772.96607"; "-8054.07327"; "-569.653942"; "-2447.5528"; "-5893.7473"];
   ["4917.38457"; "-5603.97532"; "5591.64172"; "6426.96416"; "-16979.7172"];
   ["5652.87203"; "-3243.6204"; "-4174.47982"; "-7897.43065"; "-1238.05296"]]%string.
Definition td_div := dmat
  [["-1.75792991"; "7.4526154"; "-1.77961696"; "4.36930452"; "5.24532028"];
   ["-1.84669495"; "1.44407952"; "0.432614559"; "1.16256939"; "2.3043699"];
   ["-1.14684653"; "5.19297263"; "-1.67231909"; "3.19086747"; "4.16458535"];
   ["1.58260119"; "-9.06219024"; "2.47852257"; "-3.32018408"; "-5.80381381"];
   ["-4.05907923"; "15.0937256"; "-4.35863652"; "8.57273315"; "10.9560582"]]%string.
Definition test_double : Res Z :=
  let* a := td_a in let* b := td_b in let* sum := td_sum in let* sub := td_sub in let* mul := td_mul in let* dv := td_div in
  let a := mb_of_mat a in let b := mb_of_mat b in
  checks [let* r := @m_add _ D6 a b in all_eq D6 (mb_of_mat r) (mb_of_mat sum);
          let* r := @m_sub _ D6 a b in all_eq D6 (mb_of_mat r) (mb_of_mat sub);
          let* r := @m_mul _ D6 a b in all_eq D6 (mb_of_mat r) (mb_of_mat mul);
          let* r := @div _ D6 a b in all_eq D6 (mb_of_mat r) (mb_of_mat dv)].
Example test_double_passes : test_double = Ok 0%Z.
Proof. vm_compute. reflexivity. Qed.
(** std::complex<double>, with the formulas of Complex.v; the absolute value is computed by its
    defining formula (std::abs calls hypot, which avoids overflow). *)
Definition cabs (x : cplx double) : double := SFsqrt prec64 emax64 (@cx_norm _ D6 x).
Definition C6 : Ops (cplx double) := {|
  o0 := Cx (S754_zero false) (S754_zero false); o1 := Cx one (S754_zero false);
  oadd := @cx_adda _ D6; osub := @cx_suba _ D6; omul := @cx_mula _ D6;
  oopp := fun x => Cx (SFopp (cre x)) (SFopp (cim x));
  odiv := @cx_diva _ D6;
  oeq := fun x y => @oeq _ D6 (cre x) (cre y) && @oeq _ D6 (cim x) (cim y);
  olt := fun _ _ => false; ole := fun _ _ => false;
  ofeq := fun a b => @ole _ D6 (cabs (@cx_suba _ D6 a b)) (@omul _ D6 tol6 (if @olt _ D6 (cabs a) (cabs b) then cabs b else cabs a));
  oisz := fun a => @ole _ D6 (cabs a) (@omul _ D6 tol6 (cabs a));
  oabs := fun x => Cx (cabs x) (S754_zero false);
  ofnat := fun n => Cx (@ofnat _ D6 n) (S754_zero false) |}.
Definition cmat (ll : list (list (string * string))) : Res (Matrix (cplx double)) :=
  @mat_of_nested _ C6 (map (map (fun p => Cx (lit (fst p)) (lit (snd p)))) ll).
(** test_math.cpp:133-198. *)
Definition tc_a := cmat
  [[("6.21972047", "55.6003688"); ("-62.0717653", "-9.29039483"); ("-79.2333101", "25.5526935"); ("70.1014075", "-15.4969014"); ("32.7315868", "79.1097553")];
   [("7.51023105", "3.64680008"); ("63.7374363", "43.92121"); ("36.9210945", "-56.4619748"); ("-20.2259046", "73.9420527"); ("48.0314307", "22.4845855")];
   [("10.9792993", "19.9594746"); ("79.8537074", "55.1074495"); ("83.2460263", "-63.3195366"); ("-58.0035035", "95.0898121"); ("98.1701286", "-18.5235781")];
   [("-46.0580658", "-92.6997876"); ("-97.3461191", "-8.6252516"); ("87.8804822", "-57.8865619"); ("3.50403728", "47.7014354"); ("-15.613705", "24.7798349")];
   [("67.6734711", "56.103517"); ("-26.3088772", "48.460602"); ("70.6932588", "-79.7588588"); ("-85.9500325", "35.6230139"); ("-11.8113297", "78.4160521")]]%string.
Definition tc_b := cmat
  [[("37.6463194", "55.5178134"); ("-18.4074263", "-65.6354342"); ("11.291236", "19.5497491"); ("26.5698575", "-96.6589965"); ("-31.1807715", "-81.1488153")];
   [("27.0583953", "15.5557727"); ("41.347285", "-49.2771551"); ("-86.1100143", "-8.4328456"); ("-91.8965878", "97.7787111"); ("-46.1050965", "47.456248")];
   [("25.6042146", "53.7801993"); ("-40.6112622", "9.19292961"); ("2.85852944", "2.69556217"); ("97.6854439", "-0.892334903"); ("12.801631", "-12.0367261")];
   [("-45.3993398", "85.3966666"); ("74.6956836", "-29.4508223"); ("51.8387618", "-51.7090829"); ("81.4358985", "-69.3236742"); ("58.2171779", "-7.16924139")];
   [("-69.3605792", "48.1518686"); ("39.8427618", "51.2287156"); ("-27.0086001", "30.983493"); ("90.1640195", "-84.6278121"); ("-59.2749554", "-68.5078407")]]%string.
Definition tc_sum := cmat
  [[("43.8660398", "111.118182"); ("-80.4791916", "-74.9258291"); ("-67.942074", "45.1024427"); ("96.671265", "-112.155898"); ("1.55081528", "-2.03905996")];
   [("34.5686264", "19.2025728"); ("105.084721", "-5.3559451"); ("-49.1889198", "-64.8948204"); ("-112.122492", "171.720764"); ("1.92633415", "69.9408335")];
   [("36.5835139", "73.7396739"); ("39.2424452", "64.3003792"); ("86.1045557", "-60.6239744"); ("39.6819404", "94.1974772"); ("110.97176", "-30.5603042")];
   [("-91.4574056", "-7.30312099"); ("-22.6504355", "-38.0760739"); ("139.719244", "-109.595645"); ("84.9399358", "-21.6222388"); ("42.6034729", "17.6105935")];
   [("-1.68710806", "104.255386"); ("13.5338845", "99.6893176"); ("43.6846587", "-48.7753658"); ("4.21398695", "-49.0047983"); ("-71.0862851", "9.90821134")]]%string.
Definition tc_sub := cmat
  [[("-31.4265989", "0.0825553932"); ("-43.6643391", "56.3450394"); ("-90.5245461", "6.00294437"); ("43.5315499", "81.1620951"); ("63.9123582", "160.258571")];
   [("-19.5481643", "-11.9089726"); ("22.3901514", "93.1983651"); ("123.031109", "-48.0291292"); ("71.6706833", "-23.8366585"); ("94.1365272", "-24.9716626")];
   [("-14.6249152", "-33.8207247"); ("120.46497", "45.9145199"); ("80.3874968", "-66.0150988"); ("-155.688947", "95.982147"); ("85.3684976", "-6.48685207")];
   [("-0.658726072", "-178.096454"); ("-172.041803", "20.8255707"); ("36.0417204", "-6.177479"); ("-77.9318612", "117.02511"); ("-73.830883", "31.9490763")];
   [("137.03405", "7.95164839"); ("-66.151639", "-2.76811362"); ("97.7018589", "-110.742352"); ("-176.114052", "120.250826"); ("47.4636257", "146.923893")]]%string.
Definition tc_mul := cmat
  [[("-15729.3783", "393.534741"); ("5524.72444", "1083.43283"); ("3452.0503", "-3618.4312"); ("18715.5456", "-3531.4511"); ("14363.4158", "-11811.2754")];
   [("-4706.7783", "-1056.76389"); ("5349.15112", "10222.821"); ("-4065.73103", "1566.41267"); ("3668.84828", "1404.63678"); ("-7122.24205", "-1064.22327")];
   [("-5258.73983", "3691.5543"); ("7654.7563", "13694.4559"); ("-6436.41659", "6535.30201"); ("6721.99659", "-2260.14522"); ("-14499.1048", "-1752.82647")];
   [("1933.13282", "-8887.39193"); ("-12948.3454", "15975.7617"); ("12311.3721", "826.480396"); ("12419.5692", "-5272.63418"); ("2408.46411", "2959.91843")];
   [("1970.03643", "-6433.90808"); ("-8259.55967", "9426.04534"); ("-1965.60586", "1775.14428"); ("12776.1178", "-3001.52339"); ("2624.64344", "-13744.6046")]]%string.
Definition tc_div := cmat
  [[("-2.61040517", "-0.51938165"); ("-0.86673903", "-1.64601849"); ("0.103491678", "0.796748593"); ("0.314309467", "-2.28212603"); ("1.47281764", "-0.731910495")];
   [("0.546504938", "0.924958461"); ("0.502346129", "1.28819315"); ("0.94023401", "-0.537185686"); ("-0.280741161", "1.18529653"); ("-1.2076058", "0.0729997121")];
   [("1.15521647", "2.4762995"); ("0.0113777518", "2.59992251"); ("1.62600223", "-0.265827624"); ("-1.43559827", "1.79784449"); ("-2.2968276", "-0.378406349")];
   [("0.477587767", "-2.40854546"); ("0.179103912", "-0.638206495"); ("-0.891307585", "0.400488878"); ("1.53100862", "0.408404799"); ("0.0222926676", "1.29257084")];
   [("-0.223354037", "0.0842494207"); ("-0.0380571152", "1.29062814"); ("1.74043017", "0.253183147"); ("-0.360988464", "0.553631548"); ("-1.07908079", "-0.559970571")]]%string.
Definition test_complex : Res Z :=
  let* a := tc_a in let* b := tc_b in let* sum := tc_sum in let* sub := tc_sub in let* mul := tc_mul in let* dv := tc_div in
  let a := mb_of_mat a in let b := mb_of_mat b in
  checks [let* r := @m_add _ C6 a b in all_eq C6 (mb_of_mat r) (mb_of_mat sum);
          let* r := @m_sub _ C6 a b in all_eq C6 (mb_of_mat r) (mb_of_mat sub);
          let* r := @m_mul _ C6 a b in all_eq C6 (mb_of_mat r) (mb_of_mat mul);
          let* r := @div _ C6 a b in all_eq C6 (mb_of_mat r) (mb_of_mat dv)].
Example test_complex_passes : test_complex = Ok 0%Z.
Proof. vm_compute. reflexivity. Qed.
(** * test_control.cpp *)
(** test_control.cpp:4-63. *)
Definition tk_A := dmat
  [["-5.48328"; "0.96393"; "-7.51204"; "5.44579"; "-7.60848"];
   ["1.34257"; "-8.9994"; "-9.63156"; "5.80513"; "4.864"];
   ["8.5414"; "-0.685415"; "-4.95847"; "7.58094"; "-0.0461616"];
   ["8.53525"; "0.564686"; "6.03278"; "-0.992654"; "3.41276"];
   ["4.14144"; "2.8026"; "-8.80536"; "-4.99359"; "-6.67707"]]%string.
Definition tk_B := dmat
  [["4.14299"];
   ["4.56572"];
   ["5.34455"];
   ["4.78882"];
   ["-9.34907"]]%string.
Definition tk_C := dmat
  [["-6.75743"; "1.61057"; "-8.59706"; "-3.852"; "-5.76971"];
   ["5.33681"; "-2.14648"; "-1.37983"; "-0.30633"; "4.17382"];
   ["-1.38097"; "5.1317"; "-2.39843"; "5.62033"; "-2.95562"];
   ["-8.32778"; "2.35308"; "-2.10552"; "-3.82267"; "5.30287"];
   ["-7.79774"; "1.97377"; "-5.66731"; "0.177432"; "0.132991"]]%string.
Definition tk_D := dmat
  [["0"];
   ["0"];
   ["0"];
   ["0"];
   ["0"]]%string.
Definition tk_ref_A := dmat
  [["0.994508"; "0.000950468"; "-0.00742783"; "0.00542156"; "-0.00755056"];
   ["0.00132652"; "0.991053"; "-0.00957357"; "0.00573143"; "0.00483101"];
   ["0.00852862"; "-0.000674497"; "0.995048"; "0.00757982"; "-6.70223e-05"];
   ["0.00854067"; "0.000568664"; "0.00596532"; "0.999047"; "0.00336857"];
   ["0.00405941"; "0.00278427"; "-0.008798"; "-0.00498858"; "0.993328"]]%string.
Definition tk_ref_B := dmat
  [["0.00416226"];
   ["0.00451353"];
   ["0.00536587"];
   ["0.00480567"];
   ["-0.0093385"]]%string.
Definition test_c2d : Res Z :=
  let* A := tk_A in let* B := tk_B in let* C := tk_C in let* D := tk_D in let* ra := tk_ref_A in let* rb := tk_ref_B in
  let* sys := @ss_new _ D6 A B C D in
  let* ds := @c2d _ D6 (SFsqrt prec64 emax64) half (lit "1e-05") 100 sys (lit "1e-03") in
  checks [all_eq D4 (mb_of_mat (sA (dsys ds))) (mb_of_mat ra); all_eq D4 (mb_of_mat (sB (dsys ds))) (mb_of_mat rb)].
Example test_c2d_passes : test_c2d = Ok 0%Z.
Proof. vm_compute. reflexivity. Qed.
(** test_control.cpp:65-110; the tolerance is still that set by test_c2d. *)
Definition ta_ref_K := dmat [["-3.69417"; "-5.54803"; "21.2759"; "-6.09239"; "-1.67523"]]%string.
Definition ta_poles := dmat [["-19.8672"; "-18.54"; "-13.3962"; "-19.5758"; "-15.2926"]]%string.
Definition test_acker : Res Z :=
  let* A := tk_A in let* B := tk_B in let* C := tk_C in let* D := tk_D in let* rk := ta_ref_K in let* poles := ta_poles in
  let* sys := @ss_new _ D4 A B C D in
  let* K := @acker _ D4 (mb_of_mat (sA sys)) (mb_of_mat (sB sys)) (mb_of_mat poles) in
  checks [all_eq D4 (mb_of_mat K) (mb_of_mat rk)].
Example test_acker_passes : test_acker = Ok 0%Z.
Proof. vm_compute. reflexivity. Qed.
(** test_control.cpp:112-144. *)
Definition tr_a := zvec [1; 0; 0; 1; 0; 1; 0; 0; 0; 0]%Z.
Definition tr_b := zvec [0; 1; 1; 1; 1; 0; 1; 0; 0; 0]%Z.
Definition tr_c := zvec [0; 1; 1; 0; 1; 1; 0; 1; 0; 0]%Z.
Definition tr_d := zvec [0; 0; 0; 1; 0; 1; 0; 1; 1; 1]%Z.
Definition tr_e := zvec [0; 0; 0; 0; 0; 0; 0; 0; 1; 0]%Z.
Definition tr_ref_a := zvec [1; 0; 0; 1; 0; 1; 0; 0; 0; 0]%Z.
Definition tr_ref_b := zvec [1; 1; 1; 1; 0; 1; 0; 0; 0]%Z.
Definition tr_ref_c := zvec [1; 1; 0; 1; 1; 0; 1; 0; 0]%Z.
Definition tr_ref_d := zvec [1; 0; 1; 0; 1; 1; 1]%Z.
Definition tr_ref_e := zvec [1; 0]%Z.
Definition reduced (a r : Res (list (option Z))) : Res bool := let* a := a in let* r := r in let* p := @polyreduce _ int a in all_eqv int p r.
Definition test_polyreduce : Res Z := checks [reduced tr_a tr_ref_a; reduced tr_b tr_ref_b; reduced tr_c tr_ref_c; reduced tr_d tr_ref_d; reduced tr_e tr_ref_e].
Example test_polyreduce_passes : test_polyreduce = Ok 0%Z.
Proof. vm_compute. reflexivity. Qed.
(** test_control.cpp:146-180. *)
Definition tp_a := dvec
  ["-4.31365916"; "-5.43236374"; "8.30901341"; "-4.1052015"; "-8.75671849"; "-8.20968452"; "-7.9560314"; "4.93680757"; "9.39615916"; "-4.92315493"]%string.
Definition tp_b := dvec
  ["-6.59672341"; "-0.663223138"; "2.65719019"; "-6.36291406"; "9.07896614"; "0.975672407"; "6.18531446"; "-5.29307772"; "-5.14025403"; "-1.46744895"]%string.
Definition tp_c := dvec
  ["2.44049723"; "-9.49302124"; "-8.37147845"; "1.51190319"; "-7.40282487"; "8.66589357"; "-5.72460565"; "2.24800701"; "-4.27068812"; "6.31589424"]%string.
Definition tp_d := dvec
  ["1.18684296"; "-8.83575517"; "9.88988867"; "2.2718604"; "7.85940986"; "2.26749284"; "-5.22560682"; "2.30190354"; "-4.51284885"; "3.30124804"]%string.
Definition tp_e := dvec
  ["7.1682439"; "-8.06318395"; "-0.528348051"; "2.64482488"; "4.27461831"; "7.59099286"; "8.16414622"; "-5.98537147"; "3.02603983"; "1.75029028"]%string.
Definition tp_ref_a := dvec
  ["1"; "21.0548336"; "-17.4897007"; "-3268.17296"; "-19192.7843"; "107667.157"; "1353231.96"; "2417940.15"; "-17396408.5"; "-82999934.9"; "-104405414"]%string.
Definition tp_ref_b := dvec
  ["1"; "6.62649812"; "-112.911725"; "-902.680926"; "2500.57233"; "30199.3369"; "19059.1166"; "-210355.545"; "-212728.833"; "195535.603"; "161817.207"]%string.
Definition tp_ref_c := dvec
  ["1"; "14.0804231"; "-98.0180687"; "-1916.89923"; "887.608435"; "78625.4753"; "66775.9288"; "-1145145.79"; "-234697.692"; "6666982.31"; "-6529736.95"]%string.
Definition tp_ref_d := dvec
  ["1"; "-10.5044355"; "-101.444433"; "1251.43984"; "1027.49399"; "-37680.6611"; "74338.4234"; "262291.876"; "-1195069.98"; "1627862.7"; "-752486.363"]%string.
Definition tp_ref_e := dvec
  ["1"; "-20.0422528"; "43.7125343"; "1560.5739"; "-11639.3617"; "-302.944468"; "275213.098"; "-1066030.37"; "1436090.15"; "-187362.574"; "-678295.446"]%string.
Definition expanded (a r : Res (list double)) : Res bool := let* a := a in let* r := r in let* p := @poly_v _ D6 a in all_eqv D6 p r.
Definition test_poly : Res Z := checks [expanded tp_a tp_ref_a; expanded tp_b tp_ref_b; expanded tp_c tp_ref_c; expanded tp_d tp_ref_d; expanded tp_e tp_ref_e].
Example test_poly_passes : test_poly = Ok 0%Z.
Proof. vm_compute. reflexivity. Qed.
(** * test_find.cpp, test_view.cpp *)
Definition test_m : Res (Matrix (option Z)) := zmat [[10;1;2;6;-3]; [-4;4;-1;-4;7]; [-4;-2;0;9;-9]; [-4;-8;-4;-1;7]; [-4;-9;-6;-6;8]; [-5;0;-1;8;10]]%Z.
(** test_find.cpp:5-26; [find]'s second argument is the largest size_t. *)
Definition test_find : Res Z :=
  let* a := test_m in let* lt := @m_lts _ int (mb_of_mat a) (Some (-5)%Z) in
  let* ind := @find _ boolops natops lt (N.to_nat size_max) true in
  let* control := @mat_of_nested _ natops [[14]; [16]; [21]; [22]; [23]] in
  checks [all_eq natops (mb_of_mat ind) (mb_of_mat control)].
Example test_find_passes : test_find = Ok 0%Z.
Proof. lazy. reflexivity. Qed.
(** test_view.cpp:4-50. *)
Definition test_view : Res Z :=
  let* a := test_m in let a := mb_of_mat a in
  let* v1 := view_new a (mkRange 0 3) (mkRange 1 4) in
  let* v2 := view_new a (mkRange 0 5) (mkRange 0 2) in
  let* v3 := view_new a range_all (mkRange 2 5) in
  let* r1 := zmat [[1;2;6]; [4;-1;-4]; [-2;0;9]]%Z in
  let* r2 := zmat [[10;1]; [-4;4]; [-4;-2]; [-4;-8]; [-4;-9]]%Z in
  let* r3 := zmat [[2;6;-3]; [-1;-4;7]; [0;9;-9]; [-4;-1;7]; [-6;-6;8]; [-1;8;10]]%Z in
  checks [all_eq int (mb_of_mat r1) v1; all_eq int (mb_of_mat r2) v2; all_eq int (mb_of_mat r3) v3].
Example test_view_passes : test_view = Ok 0%Z.
Proof. lazy. reflexivity. Qed.
(** * test_utility.cpp *)
(** test_utility.cpp:4-23. *)
Definition test_linspace : Res Z :=
  checks [let* r := @linspace _ int (Some 0%Z) (Some 40%Z) 5 in all_eqv int r (map Some [0;10;20;30;40]%Z);
          let* r := @linspace _ D6 (lit "0") (lit "1") 5 in all_eqv D6 r (map lit ["0"; "0.25"; "0.5"; "0.75"; "1"]%string)].
Example test_linspace_passes : test_linspace = Ok 0%Z.
Proof. vm_compute. reflexivity. Qed.
(** test_utility.cpp:25-83. *)
Definition test_stack : Res Z :=
  let* a := zmat [[10;1]; [-4;4]]%Z in let* b := zmat [[9;-9]; [-1;7]]%Z in let* z := @zeros _ int 2 2 in
  let a := mb_of_mat a in let b := mb_of_mat b in let z := mb_of_mat z in
  checks [let* ref := zmat [[10;1]; [-4;4]; [9;-9]; [-1;7]]%Z in let* r := @vstack _ int a b in all_eq int (mb_of_mat r) (mb_of_mat ref);
          let* ref := zmat [[10;1]; [-4;4]; [0;0]; [0;0]]%Z in let* r := @vstack _ int a z in all_eq int (mb_of_mat r) (mb_of_mat ref);
          let* ref := zmat [[10;1;9;-9]; [-4;4;-1;7]]%Z in let* r := @hstack _ int a b in all_eq int (mb_of_mat r) (mb_of_mat ref);
          let* ref := zmat [[10;1;0;0]; [-4;4;0;0]]%Z in let* r := @hstack _ int a z in all_eq int (mb_of_mat r) (mb_of_mat ref)].
Example test_stack_passes : test_stack = Ok 0%Z.
Proof. vm_compute. reflexivity. Qed.
(** test_utility.cpp:85-124. *)
Definition test_transform : Res Z :=
  let l := map Some [10;-4;9;-1]%Z in
  checks [let* i := zmat [[10]; [-4]; [9]; [-1]]%Z in let* r := @to_vector _ int i in all_eqv int r l;
          let* i := zmat [[10;-4;9;-1]]%Z in let* r := @to_vector _ int i in all_eqv int r l;
          let* ref := zmat [[10]; [-4]; [9]; [-1]]%Z in let* r := @to_matrix _ int l false in all_eq int (mb_of_mat r) (mb_of_mat ref);
          let* ref := zmat [[10;-4;9;-1]]%Z in let* r := @to_matrix _ int l true in all_eq int (mb_of_mat r) (mb_of_mat ref)].
Example test_transform_passes : test_transform = Ok 0%Z.
Proof. vm_compute. reflexivity. Qed.
