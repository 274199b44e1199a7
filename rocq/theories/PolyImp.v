(** The straight-line programs of src/poly_imp.h (generated by gen/polyimp.py, which copies each
    statement).  Doubles are real numbers; a decimal literal 0.ddd of the tables is its value
    times 10^52.  Unary plus is dropped. *)
From Verif Require Import Base PolyImpSyntax.
Open Scope ex_scope.

(** gllz_04 (poly_imp.h:45-47). *)
Definition gllz_04 : list Z := [
  4472135954999579392818347337462552470881236719223100]%Z.

(** gllz_05 (poly_imp.h:77-79). *)
Definition gllz_05 : list Z := [
  6546536707079771437982924562468583555692080823954200]%Z.

(** gllz_06 (poly_imp.h:115-118). *)
Definition gllz_06 : list Z := [
  7650553239294646928510029739593381503657356885361000;
  2852315164806450963141509940408790719190034727264300]%Z.

(** gllz_07 (poly_imp.h:158-161). *)
Definition gllz_07 : list Z := [
  8302238962785669298720322139674651395871703648720000;
  4688487934707142138037718819087663294055974716718400]%Z.

(** gllz_08 (poly_imp.h:207-211). *)
Definition gllz_08 : list Z := [
  8717401485096066153374457612206634381037806696769800;
  5917001814331423021445107313979531899457009895173300;
  2092992179024788687686572603453512552955454050866800]%Z.

(** gllz_09 (poly_imp.h:263-267). *)
Definition gllz_09 : list Z := [
  8997579954114601573123452444183379580514802955661000;
  6771862795107377534458854270913424507110296476139100;
  3631174638261781587107520687086592130206422776008800]%Z.

(** gllz_10 (poly_imp.h:323-328). *)
Definition gllz_10 : list Z := [
  9195339081664588138289326608223381341535430754462800;
  7387738651055050750031061748598307250161851013769300;
  4779249498104444956611750927312579978867728933305700;
  1652789576663870246262197659581735332311503435494800]%Z.

(** gllz_11 (poly_imp.h:390-395). *)
Definition gllz_11 : list Z := [
  9340014304080591343322741360993836345399173301099600;
  7844834736631444186224178161084581035071974550940600;
  5652353269962050064709639694777516642830521455620200;
  2957581355869393914319115155590575089410064343486000]%Z.

(** gllz_12 (poly_imp.h:463-469). *)
Definition gllz_12 : list Z := [
  9448992722228822234075801383032187136112565519500300;
  8192793216440066783486415817169026606904666579036400;
  6328761530318606776624048544436558582438437454015000;
  3995309409653489322643497915669669005277480327953100;
  1365529328549275548640618557396938968984141112820600]%Z.

(** gllz_13 (poly_imp.h:541-547). *)
Definition gllz_13 : list Z := [
  9533098466421639118969054647554491516265078886973600;
  8463475646518723168659256070987533595780366597144100;
  6861884690817574260727590395663555529291761981243800;
  4829098210913362017469372336369336207721932621185900;
  2492869301062399925686737003742269814888113124929800]%Z.

(** gllz_14 (poly_imp.h:625-632). *)
Definition gllz_14 : list Z := [
  9599350452672609013551001620154243890663915185726500;
  8678010538303472510002202029082642132498723530944400;
  7288685990913261405846724005208815956573395316943200;
  5506394029286470553166227058590806344621383195539100;
  3427240133427128450439034036416746448331135341403100;
  1163318688837038676587767097361601679415090442562800]%Z.

(** gllz_15 (poly_imp.h:716-723). *)
Definition gllz_15 : list Z := [
  9652459265038385727958513920696011777076501359970900;
  8850820442229762988254016314822296519887140852074800;
  7635196899518152007041184759762916181773685203152900;
  6062532054698457111235299386367335071797310337599200;
  4206380547136724809218969387385804129843382054924300;
  2153539553637942382256794462729177126521579012030400]%Z.

(** gllz_16 (poly_imp.h:811-819). *)
Definition gllz_16 : list Z := [
  9695680462702179329522427383674592413889907465038300;
  8992005330934720929946282615198494767499976090451400;
  7920082918618150639310882709631457058080738279802000;
  6523887028824930894678832196405814803215580128295700;
  4860594218871376117818907858468746968889773042982500;
  2998304689007632080983534547223006478154609769077800;
  1013262735219494478430330050459177625332409144001900]%Z.

(** gllz_17 (poly_imp.h:913-921). *)
Definition gllz_17 : list Z := [
  9731321766314183141569795018737214305889591491225100;
  9108799959155735956238025063977264675308794518687300;
  8156962512217703071067505532375266547164023970671200;
  6910289806276847053949193573724532968064130621904200;
  5413853993301015391237334075040632516751466479648300;
  3721744335654770419072346807352578125598173144002800;
  1895119735183173883042630147531139713449924229225000]%Z.

(** gllz_18 (poly_imp.h:1021-1030). *)
Definition gllz_18 : list Z := [
  9761055574121985428645189243417000667618134427191900;
  9206491853475338738378546254312774235623534861890400;
  8355935352180902137136463623279372574336707591658200;
  7236793292832426813062103653020706791495252041547600;
  5885048343186617611735358931935594690008367893162200;
  4344150369121239753422871367406747958497584451636900;
  2663626528782809841676653320255959420651361893182600;
  897490934846521110226450100885617349606039010411250]%Z.

(** gllz_19 (poly_imp.h:1134-1143). *)
Definition gllz_19 : list Z := [
  9786117662220800951526340631102225628142773378108100;
  9289015281525862437179402587965486124501681822519500;
  8524605777966460930859559700410626252370953808388700;
  7514942025526130141636374896339440404036593556658000;
  6289081372652204977668323062287325470686111571895600;
  4882292856807135027779096376249233697712155996514800;
  3335048478244986102985001038449270119229633754777300;
  1691860234092815713751541534448804237528955507658500]%Z.

(** gllz_20 (poly_imp.h:1253-1263). *)
Definition gllz_20 : list Z := [
  9807437048939141719254464385842309152299106231262500;
  9359344988126654357161815849306269299155738331810500;
  8668779780899501413098472146162852139629112883169900;
  7753682609520558704143175275946913433727218594765300;
  6637764022903112898464033229711588524757457419914900;
  5349928640318862616481359618289839830068515691375200;
  3923531837139092993864747038158243666652033292989100;
  2395517059229864951824013569270880719415178099273800;
  805459372388218379759445181595544630223928700929080]%Z.

(** gllz_21 (poly_imp.h:1379-1389). *)
Definition gllz_21 : list Z := [
  9825722966045480282344812765554058768591715882364100;
  9419762969597455342961026506614351766496508740440100;
  8792947553235904644511535963049440477105815515092000;
  7960019260777124047443125896603586390904196605497800;
  6940510260622232326273163931946666287577160061058500;
  5758319602618306869270218703380852873357730085584800;
  4441157832790021011945163496073512847350574865670600;
  3019898565087648872753518678587522320210710340603900;
  1527855158021854660063583284856694355177489933132800]%Z.

(** gllz_22 (poly_imp.h:1509-1520). *)
Definition gllz_22 : list Z := [
  9841524384576461765522896222120702966055135361195200;
  9472042839992286805242137666157295099120620453413600;
  8900622901909044705296578257790867901995340828471500;
  8139489276119211360454418480561350424386685149071000;
  7204872399612021581198818963984657585933454261195000;
  6116694382842589712262116058699265993454403046077000;
  4898148751899023498087512356832700416712716357951500;
  3575207101389195380609572802401791292833071039429400;
  2176065851592850417879550934653927632750066940141900;
  730545400108983347610887904641073561927792363335160]%Z.

(** gllz_23 (poly_imp.h:1646-1657). *)
Definition gllz_23 : list Z := [
  9855271558787325780814627667380990990206107921396500;
  9517579557107102041356396798514291558483519254488000;
  8994585580403450109501603203473671579117983481392900;
  8296510966512858862232006192900048845985118830133300;
  7436950411720606839451635430669967912872192289538600;
  6432636444601362084761455336027687438913118818023000;
  5303117711368441681301153201522998111303465149273400;
  4070379379144748291959504882150956395519537239941700;
  2758415489457930671068776326791352041731911066094200;
  1392762040406683985918626129827669339085444571744400]%Z.

(** gllz_24 (poly_imp.h:1789-1801). *)
Definition gllz_24 : list Z := [
  9867305535051608835530867381544749753719197924133000;
  9557482209298863580269771305506448310707330429557400;
  9077056751135065219951529964662077492084201138782800;
  8434640701548720406233050374233422858410761008103300;
  7641704824204933077873752809522936513210604492369000;
  6712401052641286998356648581870067565740232889464300;
  5663313579792953121894095445422837704388949971264800;
  4513163732143226182482184915696224488230882183124900;
  3282476133755109120333891793596093437011778687727000;
  1993212533908326672365725391249907308118755914214800;
  668379937372285781136418083916773097962232089176280]%Z.

(** gll_lag_02 (poly_imp.h:5-21). *)
Definition gll_lag_02 : prog := {|
  nodes := [];
  b0 := [
    Let (d 0) (X + 2);
    Let (d 1) (X - 2);
    Let (u0 1) (1 * d 0);
    Let (v0 0) (d 1 * 1);
    Out 0 (W 0 * 1 * v0 0);
    Out 1 (W 1 * u0 1 * 1)];
  b1 := [
    Out 2 (2 * W 0 * (1));
    Out 3 (2 * W 1 * (1))];
  b2 := [
    Out 4 (0);
    Out 5 (0)] |}.

(** gll_lag_03 (poly_imp.h:23-43). *)
Definition gll_lag_03 : prog := {|
  nodes := [];
  b0 := [
    Let (d 0) (X + 2);
    Let (d 1) (X);
    Let (d 2) (X - 2);
    Let (u0 1) (1 * d 0);
    Let (u0 2) (u0 1 * d 1);
    Let (v0 1) (d 2 * 1);
    Let (v0 0) (d 1 * v0 1);
    Out 0 (W 0 * 1 * v0 0);
    Out 1 (W 1 * u0 1 * v0 1);
    Out 2 (W 2 * u0 2 * 1)];
  b1 := [
    Let (u1 2) (1 * d 1 + u0 1);
    Let (v1 0) (d 1 * 1 + v0 1);
    Out 3 (2 * W 0 * (v1 0));
    Out 4 (2 * W 1 * (1 * v0 1 + u0 1 * 1));
    Out 5 (2 * W 2 * (u1 2))];
  b2 := [
    Out 6 (4 * W 0 * (1 * 2));
    Out 7 (4 * W 1 * (2 * 1 * 1));
    Out 8 (4 * W 2 * (2 * 1))] |}.

(** gll_lag_04 (poly_imp.h:49-75). *)
Definition gll_lag_04 : prog := {|
  nodes := gllz_04;
  b0 := [
    Let (d 0) (X + 2);
    Let (d 1) (X + 2 * G 0);
    Let (d 2) (X - 2 * G 0);
    Let (d 3) (X - 2);
    Let (u0 1) (1 * d 0);
    Let (u0 2) (u0 1 * d 1);
    Let (u0 3) (u0 2 * d 2);
    Let (v0 2) (d 3 * 1);
    Let (v0 1) (d 2 * v0 2);
    Let (v0 0) (d 1 * v0 1);
    Out 0 (W 0 * 1 * v0 0);
    Out 1 (W 1 * u0 1 * v0 1);
    Out 2 (W 2 * u0 2 * v0 2);
    Out 3 (W 3 * u0 3 * 1)];
  b1 := [
    Let (u1 2) (1 * d 1 + u0 1);
    Let (u1 3) (u1 2 * d 2 + u0 2);
    Let (v1 1) (d 2 * 1 + v0 2);
    Let (v1 0) (d 1 * v1 1 + v0 1);
    Out 4 (2 * W 0 * (v1 0));
    Out 5 (2 * W 1 * (1 * v0 1 + u0 1 * v1 1));
    Out 6 (2 * W 2 * (u1 2 * v0 2 + u0 2 * 1));
    Out 7 (2 * W 3 * (u1 3))];
  b2 := [
    Let (u2 3) (2 * d 2 + 2 * u1 2);
    Let (v2 0) (d 1 * 2 + 2 * v1 1);
    Out 8 (4 * W 0 * (1 * v2 0));
    Out 9 (4 * W 1 * (2 * 1 * v1 1 + u0 1 * 2));
    Out 10 (4 * W 2 * (2 * v0 2 + 2 * u1 2 * 1));
    Out 11 (4 * W 3 * (u2 3 * 1))] |}.

(** gll_lag_05 (poly_imp.h:81-113). *)
Definition gll_lag_05 : prog := {|
  nodes := gllz_05;
  b0 := [
    Let (d 0) (X + 2);
    Let (d 1) (X + 2 * G 0);
    Let (d 2) (X);
    Let (d 3) (X - 2 * G 0);
    Let (d 4) (X - 2);
    Let (u0 1) (1 * d 0);
    Let (u0 2) (u0 1 * d 1);
    Let (u0 3) (u0 2 * d 2);
    Let (u0 4) (u0 3 * d 3);
    Let (v0 3) (d 4 * 1);
    Let (v0 2) (d 3 * v0 3);
    Let (v0 1) (d 2 * v0 2);
    Let (v0 0) (d 1 * v0 1);
    Out 0 (W 0 * 1 * v0 0);
    Out 1 (W 1 * u0 1 * v0 1);
    Out 2 (W 2 * u0 2 * v0 2);
    Out 3 (W 3 * u0 3 * v0 3);
    Out 4 (W 4 * u0 4 * 1)];
  b1 := [
    Let (u1 2) (1 * d 1 + u0 1);
    Let (u1 3) (u1 2 * d 2 + u0 2);
    Let (u1 4) (u1 3 * d 3 + u0 3);
    Let (v1 2) (d 3 * 1 + v0 3);
    Let (v1 1) (d 2 * v1 2 + v0 2);
    Let (v1 0) (d 1 * v1 1 + v0 1);
    Out 5 (2 * W 0 * (v1 0));
    Out 6 (2 * W 1 * (1 * v0 1 + u0 1 * v1 1));
    Out 7 (2 * W 2 * (u1 2 * v0 2 + u0 2 * v1 2));
    Out 8 (2 * W 3 * (u1 3 * v0 3 + u0 3 * 1));
    Out 9 (2 * W 4 * (u1 4))];
  b2 := [
    Let (u2 3) (2 * d 2 + 2 * u1 2);
    Let (u2 4) (u2 3 * d 3 + 2 * u1 3);
    Let (v2 1) (d 2 * 2 + 2 * v1 2);
    Let (v2 0) (d 1 * v2 1 + 2 * v1 1);
    Out 10 (4 * W 0 * (1 * v2 0));
    Out 11 (4 * W 1 * (2 * 1 * v1 1 + u0 1 * v2 1));
    Out 12 (4 * W 2 * (2 * v0 2 + 2 * u1 2 * v1 2 + u0 2 * 2));
    Out 13 (4 * W 3 * (u2 3 * v0 3 + 2 * u1 3 * 1));
    Out 14 (4 * W 4 * (u2 4 * 1))] |}.

(** gll_lag_06 (poly_imp.h:120-156). *)
Definition gll_lag_06 : prog := {|
  nodes := gllz_06;
  b0 := [
    Let (d 0) (X + 2);
    Let (d 1) (X + 2 * G 0);
    Let (d 2) (X + 2 * G 1);
    Let (d 3) (X - 2 * G 1);
    Let (d 4) (X - 2 * G 0);
    Let (d 5) (X - 2);
    Let (u0 1) (1 * d 0);
    Let (u0 2) (u0 1 * d 1);
    Let (u0 3) (u0 2 * d 2);
    Let (u0 4) (u0 3 * d 3);
    Let (u0 5) (u0 4 * d 4);
    Let (v0 4) (d 5 * 1);
    Let (v0 3) (d 4 * v0 4);
    Let (v0 2) (d 3 * v0 3);
    Let (v0 1) (d 2 * v0 2);
    Let (v0 0) (d 1 * v0 1);
    Out 0 (W 0 * 1 * v0 0);
    Out 1 (W 1 * u0 1 * v0 1);
    Out 2 (W 2 * u0 2 * v0 2);
    Out 3 (W 3 * u0 3 * v0 3);
    Out 4 (W 4 * u0 4 * v0 4);
    Out 5 (W 5 * u0 5 * 1)];
  b1 := [
    Let (u1 2) (1 * d 1 + u0 1);
    Let (u1 3) (u1 2 * d 2 + u0 2);
    Let (u1 4) (u1 3 * d 3 + u0 3);
    Let (u1 5) (u1 4 * d 4 + u0 4);
    Let (v1 3) (d 4 * 1 + v0 4);
    Let (v1 2) (d 3 * v1 3 + v0 3);
    Let (v1 1) (d 2 * v1 2 + v0 2);
    Let (v1 0) (d 1 * v1 1 + v0 1);
    Out 6 (2 * W 0 * (v1 0));
    Out 7 (2 * W 1 * (1 * v0 1 + u0 1 * v1 1));
    Out 8 (2 * W 2 * (u1 2 * v0 2 + u0 2 * v1 2));
    Out 9 (2 * W 3 * (u1 3 * v0 3 + u0 3 * v1 3));
    Out 10 (2 * W 4 * (u1 4 * v0 4 + u0 4 * 1));
    Out 11 (2 * W 5 * (u1 5))];
  b2 := [
    Let (u2 3) (2 * d 2 + 2 * u1 2);
    Let (u2 4) (u2 3 * d 3 + 2 * u1 3);
    Let (u2 5) (u2 4 * d 4 + 2 * u1 4);
    Let (v2 2) (d 3 * 2 + 2 * v1 3);
    Let (v2 1) (d 2 * v2 2 + 2 * v1 2);
    Let (v2 0) (d 1 * v2 1 + 2 * v1 1);
    Out 12 (4 * W 0 * (1 * v2 0));
    Out 13 (4 * W 1 * (2 * 1 * v1 1 + u0 1 * v2 1));
    Out 14 (4 * W 2 * (2 * v0 2 + 2 * u1 2 * v1 2 + u0 2 * v2 2));
    Out 15 (4 * W 3 * (u2 3 * v0 3 + 2 * u1 3 * v1 3 + u0 3 * 2));
    Out 16 (4 * W 4 * (u2 4 * v0 4 + 2 * u1 4 * 1));
    Out 17 (4 * W 5 * (u2 5 * 1))] |}.

(** gll_lag_07 (poly_imp.h:163-205). *)
Definition gll_lag_07 : prog := {|
  nodes := gllz_07;
  b0 := [
    Let (d 0) (X + 2);
    Let (d 1) (X + 2 * G 0);
    Let (d 2) (X + 2 * G 1);
    Let (d 3) (X);
    Let (d 4) (X - 2 * G 1);
    Let (d 5) (X - 2 * G 0);
    Let (d 6) (X - 2);
    Let (u0 1) (1 * d 0);
    Let (u0 2) (u0 1 * d 1);
    Let (u0 3) (u0 2 * d 2);
    Let (u0 4) (u0 3 * d 3);
    Let (u0 5) (u0 4 * d 4);
    Let (u0 6) (u0 5 * d 5);
    Let (v0 5) (d 6 * 1);
    Let (v0 4) (d 5 * v0 5);
    Let (v0 3) (d 4 * v0 4);
    Let (v0 2) (d 3 * v0 3);
    Let (v0 1) (d 2 * v0 2);
    Let (v0 0) (d 1 * v0 1);
    Out 0 (W 0 * 1 * v0 0);
    Out 1 (W 1 * u0 1 * v0 1);
    Out 2 (W 2 * u0 2 * v0 2);
    Out 3 (W 3 * u0 3 * v0 3);
    Out 4 (W 4 * u0 4 * v0 4);
    Out 5 (W 5 * u0 5 * v0 5);
    Out 6 (W 6 * u0 6 * 1)];
  b1 := [
    Let (u1 2) (1 * d 1 + u0 1);
    Let (u1 3) (u1 2 * d 2 + u0 2);
    Let (u1 4) (u1 3 * d 3 + u0 3);
    Let (u1 5) (u1 4 * d 4 + u0 4);
    Let (u1 6) (u1 5 * d 5 + u0 5);
    Let (v1 4) (d 5 * 1 + v0 5);
    Let (v1 3) (d 4 * v1 4 + v0 4);
    Let (v1 2) (d 3 * v1 3 + v0 3);
    Let (v1 1) (d 2 * v1 2 + v0 2);
    Let (v1 0) (d 1 * v1 1 + v0 1);
    Out 7 (2 * W 0 * (v1 0));
    Out 8 (2 * W 1 * (1 * v0 1 + u0 1 * v1 1));
    Out 9 (2 * W 2 * (u1 2 * v0 2 + u0 2 * v1 2));
    Out 10 (2 * W 3 * (u1 3 * v0 3 + u0 3 * v1 3));
    Out 11 (2 * W 4 * (u1 4 * v0 4 + u0 4 * v1 4));
    Out 12 (2 * W 5 * (u1 5 * v0 5 + u0 5 * 1));
    Out 13 (2 * W 6 * (u1 6))];
  b2 := [
    Let (u2 3) (2 * d 2 + 2 * u1 2);
    Let (u2 4) (u2 3 * d 3 + 2 * u1 3);
    Let (u2 5) (u2 4 * d 4 + 2 * u1 4);
    Let (u2 6) (u2 5 * d 5 + 2 * u1 5);
    Let (v2 3) (d 4 * 2 + 2 * v1 4);
    Let (v2 2) (d 3 * v2 3 + 2 * v1 3);
    Let (v2 1) (d 2 * v2 2 + 2 * v1 2);
    Let (v2 0) (d 1 * v2 1 + 2 * v1 1);
    Out 14 (4 * W 0 * (1 * v2 0));
    Out 15 (4 * W 1 * (2 * 1 * v1 1 + u0 1 * v2 1));
    Out 16 (4 * W 2 * (2 * v0 2 + 2 * u1 2 * v1 2 + u0 2 * v2 2));
    Out 17 (4 * W 3 * (u2 3 * v0 3 + 2 * u1 3 * v1 3 + u0 3 * v2 3));
    Out 18 (4 * W 4 * (u2 4 * v0 4 + 2 * u1 4 * v1 4 + u0 4 * 2));
    Out 19 (4 * W 5 * (u2 5 * v0 5 + 2 * u1 5 * 1));
    Out 20 (4 * W 6 * (u2 6 * 1))] |}.

(** gll_lag_08 (poly_imp.h:213-261). *)
Definition gll_lag_08 : prog := {|
  nodes := gllz_08;
  b0 := [
    Let (d 0) (X + 2);
    Let (d 1) (X + 2 * G 0);
    Let (d 2) (X + 2 * G 1);
    Let (d 3) (X + 2 * G 2);
    Let (d 4) (X - 2 * G 2);
    Let (d 5) (X - 2 * G 1);
    Let (d 6) (X - 2 * G 0);
    Let (d 7) (X - 2);
    Let (u0 1) (1 * d 0);
    Let (u0 2) (u0 1 * d 1);
    Let (u0 3) (u0 2 * d 2);
    Let (u0 4) (u0 3 * d 3);
    Let (u0 5) (u0 4 * d 4);
    Let (u0 6) (u0 5 * d 5);
    Let (u0 7) (u0 6 * d 6);
    Let (v0 6) (d 7 * 1);
    Let (v0 5) (d 6 * v0 6);
    Let (v0 4) (d 5 * v0 5);
    Let (v0 3) (d 4 * v0 4);
    Let (v0 2) (d 3 * v0 3);
    Let (v0 1) (d 2 * v0 2);
    Let (v0 0) (d 1 * v0 1);
    Out 0 (W 0 * 1 * v0 0);
    Out 1 (W 1 * u0 1 * v0 1);
    Out 2 (W 2 * u0 2 * v0 2);
    Out 3 (W 3 * u0 3 * v0 3);
    Out 4 (W 4 * u0 4 * v0 4);
    Out 5 (W 5 * u0 5 * v0 5);
    Out 6 (W 6 * u0 6 * v0 6);
    Out 7 (W 7 * u0 7 * 1)];
  b1 := [
    Let (u1 2) (1 * d 1 + u0 1);
    Let (u1 3) (u1 2 * d 2 + u0 2);
    Let (u1 4) (u1 3 * d 3 + u0 3);
    Let (u1 5) (u1 4 * d 4 + u0 4);
    Let (u1 6) (u1 5 * d 5 + u0 5);
    Let (u1 7) (u1 6 * d 6 + u0 6);
    Let (v1 5) (d 6 * 1 + v0 6);
    Let (v1 4) (d 5 * v1 5 + v0 5);
    Let (v1 3) (d 4 * v1 4 + v0 4);
    Let (v1 2) (d 3 * v1 3 + v0 3);
    Let (v1 1) (d 2 * v1 2 + v0 2);
    Let (v1 0) (d 1 * v1 1 + v0 1);
    Out 8 (2 * W 0 * (v1 0));
    Out 9 (2 * W 1 * (1 * v0 1 + u0 1 * v1 1));
    Out 10 (2 * W 2 * (u1 2 * v0 2 + u0 2 * v1 2));
    Out 11 (2 * W 3 * (u1 3 * v0 3 + u0 3 * v1 3));
    Out 12 (2 * W 4 * (u1 4 * v0 4 + u0 4 * v1 4));
    Out 13 (2 * W 5 * (u1 5 * v0 5 + u0 5 * v1 5));
    Out 14 (2 * W 6 * (u1 6 * v0 6 + u0 6 * 1));
    Out 15 (2 * W 7 * (u1 7))];
  b2 := [
    Let (u2 3) (2 * d 2 + 2 * u1 2);
    Let (u2 4) (u2 3 * d 3 + 2 * u1 3);
    Let (u2 5) (u2 4 * d 4 + 2 * u1 4);
    Let (u2 6) (u2 5 * d 5 + 2 * u1 5);
    Let (u2 7) (u2 6 * d 6 + 2 * u1 6);
    Let (v2 4) (d 5 * 2 + 2 * v1 5);
    Let (v2 3) (d 4 * v2 4 + 2 * v1 4);
    Let (v2 2) (d 3 * v2 3 + 2 * v1 3);
    Let (v2 1) (d 2 * v2 2 + 2 * v1 2);
    Let (v2 0) (d 1 * v2 1 + 2 * v1 1);
    Out 16 (4 * W 0 * (1 * v2 0));
    Out 17 (4 * W 1 * (2 * 1 * v1 1 + u0 1 * v2 1));
    Out 18 (4 * W 2 * (2 * v0 2 + 2 * u1 2 * v1 2 + u0 2 * v2 2));
    Out 19 (4 * W 3 * (u2 3 * v0 3 + 2 * u1 3 * v1 3 + u0 3 * v2 3));
    Out 20 (4 * W 4 * (u2 4 * v0 4 + 2 * u1 4 * v1 4 + u0 4 * v2 4));
    Out 21 (4 * W 5 * (u2 5 * v0 5 + 2 * u1 5 * v1 5 + u0 5 * 2));
    Out 22 (4 * W 6 * (u2 6 * v0 6 + 2 * u1 6 * 1));
    Out 23 (4 * W 7 * (u2 7 * 1))] |}.

(** gll_lag_09 (poly_imp.h:269-321). *)
Definition gll_lag_09 : prog := {|
  nodes := gllz_09;
  b0 := [
    Let (d 0) (X + 2);
    Let (d 1) (X + 2 * G 0);
    Let (d 2) (X + 2 * G 1);
    Let (d 3) (X + 2 * G 2);
    Let (d 4) (X);
    Let (d 5) (X - 2 * G 2);
    Let (d 6) (X - 2 * G 1);
    Let (d 7) (X - 2 * G 0);
    Let (d 8) (X - 2);
    Let (u0 1) (1 * d 0);
    Let (u0 2) (u0 1 * d 1);
    Let (u0 3) (u0 2 * d 2);
    Let (u0 4) (u0 3 * d 3);
    Let (u0 5) (u0 4 * d 4);
    Let (u0 6) (u0 5 * d 5);
    Let (u0 7) (u0 6 * d 6);
    Let (u0 8) (u0 7 * d 7);
    Let (v0 7) (d 8 * 1);
    Let (v0 6) (d 7 * v0 7);
    Let (v0 5) (d 6 * v0 6);
    Let (v0 4) (d 5 * v0 5);
    Let (v0 3) (d 4 * v0 4);
    Let (v0 2) (d 3 * v0 3);
    Let (v0 1) (d 2 * v0 2);
    Let (v0 0) (d 1 * v0 1);
    Out 0 (W 0 * 1 * v0 0);
    Out 1 (W 1 * u0 1 * v0 1);
    Out 2 (W 2 * u0 2 * v0 2);
    Out 3 (W 3 * u0 3 * v0 3);
    Out 4 (W 4 * u0 4 * v0 4);
    Out 5 (W 5 * u0 5 * v0 5);
    Out 6 (W 6 * u0 6 * v0 6);
    Out 7 (W 7 * u0 7 * v0 7);
    Out 8 (W 8 * u0 8 * 1)];
  b1 := [
    Let (u1 2) (1 * d 1 + u0 1);
    Let (u1 3) (u1 2 * d 2 + u0 2);
    Let (u1 4) (u1 3 * d 3 + u0 3);
    Let (u1 5) (u1 4 * d 4 + u0 4);
    Let (u1 6) (u1 5 * d 5 + u0 5);
    Let (u1 7) (u1 6 * d 6 + u0 6);
    Let (u1 8) (u1 7 * d 7 + u0 7);
    Let (v1 6) (d 7 * 1 + v0 7);
    Let (v1 5) (d 6 * v1 6 + v0 6);
    Let (v1 4) (d 5 * v1 5 + v0 5);
    Let (v1 3) (d 4 * v1 4 + v0 4);
    Let (v1 2) (d 3 * v1 3 + v0 3);
    Let (v1 1) (d 2 * v1 2 + v0 2);
    Let (v1 0) (d 1 * v1 1 + v0 1);
    Out 9 (2 * W 0 * (v1 0));
    Out 10 (2 * W 1 * (1 * v0 1 + u0 1 * v1 1));
    Out 11 (2 * W 2 * (u1 2 * v0 2 + u0 2 * v1 2));
    Out 12 (2 * W 3 * (u1 3 * v0 3 + u0 3 * v1 3));
    Out 13 (2 * W 4 * (u1 4 * v0 4 + u0 4 * v1 4));
    Out 14 (2 * W 5 * (u1 5 * v0 5 + u0 5 * v1 5));
    Out 15 (2 * W 6 * (u1 6 * v0 6 + u0 6 * v1 6));
    Out 16 (2 * W 7 * (u1 7 * v0 7 + u0 7 * 1));
    Out 17 (2 * W 8 * (u1 8))];
  b2 := [
    Let (u2 3) (2 * d 2 + 2 * u1 2);
    Let (u2 4) (u2 3 * d 3 + 2 * u1 3);
    Let (u2 5) (u2 4 * d 4 + 2 * u1 4);
    Let (u2 6) (u2 5 * d 5 + 2 * u1 5);
    Let (u2 7) (u2 6 * d 6 + 2 * u1 6);
    Let (u2 8) (u2 7 * d 7 + 2 * u1 7);
    Let (v2 5) (d 6 * 2 + 2 * v1 6);
    Let (v2 4) (d 5 * v2 5 + 2 * v1 5);
    Let (v2 3) (d 4 * v2 4 + 2 * v1 4);
    Let (v2 2) (d 3 * v2 3 + 2 * v1 3);
    Let (v2 1) (d 2 * v2 2 + 2 * v1 2);
    Let (v2 0) (d 1 * v2 1 + 2 * v1 1);
    Out 18 (4 * W 0 * (1 * v2 0));
    Out 19 (4 * W 1 * (2 * 1 * v1 1 + u0 1 * v2 1));
    Out 20 (4 * W 2 * (2 * v0 2 + 2 * u1 2 * v1 2 + u0 2 * v2 2));
    Out 21 (4 * W 3 * (u2 3 * v0 3 + 2 * u1 3 * v1 3 + u0 3 * v2 3));
    Out 22 (4 * W 4 * (u2 4 * v0 4 + 2 * u1 4 * v1 4 + u0 4 * v2 4));
    Out 23 (4 * W 5 * (u2 5 * v0 5 + 2 * u1 5 * v1 5 + u0 5 * v2 5));
    Out 24 (4 * W 6 * (u2 6 * v0 6 + 2 * u1 6 * v1 6 + u0 6 * 2));
    Out 25 (4 * W 7 * (u2 7 * v0 7 + 2 * u1 7 * 1));
    Out 26 (4 * W 8 * (u2 8 * 1))] |}.

(** gll_lag_10 (poly_imp.h:330-388). *)
Definition gll_lag_10 : prog := {|
  nodes := gllz_10;
  b0 := [
    Let (d 0) (X + 2);
    Let (d 1) (X + 2 * G 0);
    Let (d 2) (X + 2 * G 1);
    Let (d 3) (X + 2 * G 2);
    Let (d 4) (X + 2 * G 3);
    Let (d 5) (X - 2 * G 3);
    Let (d 6) (X - 2 * G 2);
    Let (d 7) (X - 2 * G 1);
    Let (d 8) (X - 2 * G 0);
    Let (d 9) (X - 2);
    Let (u0 1) (1 * d 0);
    Let (u0 2) (u0 1 * d 1);
    Let (u0 3) (u0 2 * d 2);
    Let (u0 4) (u0 3 * d 3);
    Let (u0 5) (u0 4 * d 4);
    Let (u0 6) (u0 5 * d 5);
    Let (u0 7) (u0 6 * d 6);
    Let (u0 8) (u0 7 * d 7);
    Let (u0 9) (u0 8 * d 8);
    Let (v0 8) (d 9 * 1);
    Let (v0 7) (d 8 * v0 8);
    Let (v0 6) (d 7 * v0 7);
    Let (v0 5) (d 6 * v0 6);
    Let (v0 4) (d 5 * v0 5);
    Let (v0 3) (d 4 * v0 4);
    Let (v0 2) (d 3 * v0 3);
    Let (v0 1) (d 2 * v0 2);
    Let (v0 0) (d 1 * v0 1);
    Out 0 (W 0 * 1 * v0 0);
    Out 1 (W 1 * u0 1 * v0 1);
    Out 2 (W 2 * u0 2 * v0 2);
    Out 3 (W 3 * u0 3 * v0 3);
    Out 4 (W 4 * u0 4 * v0 4);
    Out 5 (W 5 * u0 5 * v0 5);
    Out 6 (W 6 * u0 6 * v0 6);
    Out 7 (W 7 * u0 7 * v0 7);
    Out 8 (W 8 * u0 8 * v0 8);
    Out 9 (W 9 * u0 9 * 1)];
  b1 := [
    Let (u1 2) (1 * d 1 + u0 1);
    Let (u1 3) (u1 2 * d 2 + u0 2);
    Let (u1 4) (u1 3 * d 3 + u0 3);
    Let (u1 5) (u1 4 * d 4 + u0 4);
    Let (u1 6) (u1 5 * d 5 + u0 5);
    Let (u1 7) (u1 6 * d 6 + u0 6);
    Let (u1 8) (u1 7 * d 7 + u0 7);
    Let (u1 9) (u1 8 * d 8 + u0 8);
    Let (v1 7) (d 8 * 1 + v0 8);
    Let (v1 6) (d 7 * v1 7 + v0 7);
    Let (v1 5) (d 6 * v1 6 + v0 6);
    Let (v1 4) (d 5 * v1 5 + v0 5);
    Let (v1 3) (d 4 * v1 4 + v0 4);
    Let (v1 2) (d 3 * v1 3 + v0 3);
    Let (v1 1) (d 2 * v1 2 + v0 2);
    Let (v1 0) (d 1 * v1 1 + v0 1);
    Out 10 (2 * W 0 * (v1 0));
    Out 11 (2 * W 1 * (1 * v0 1 + u0 1 * v1 1));
    Out 12 (2 * W 2 * (u1 2 * v0 2 + u0 2 * v1 2));
    Out 13 (2 * W 3 * (u1 3 * v0 3 + u0 3 * v1 3));
    Out 14 (2 * W 4 * (u1 4 * v0 4 + u0 4 * v1 4));
    Out 15 (2 * W 5 * (u1 5 * v0 5 + u0 5 * v1 5));
    Out 16 (2 * W 6 * (u1 6 * v0 6 + u0 6 * v1 6));
    Out 17 (2 * W 7 * (u1 7 * v0 7 + u0 7 * v1 7));
    Out 18 (2 * W 8 * (u1 8 * v0 8 + u0 8 * 1));
    Out 19 (2 * W 9 * (u1 9))];
  b2 := [
    Let (u2 3) (2 * d 2 + 2 * u1 2);
    Let (u2 4) (u2 3 * d 3 + 2 * u1 3);
    Let (u2 5) (u2 4 * d 4 + 2 * u1 4);
    Let (u2 6) (u2 5 * d 5 + 2 * u1 5);
    Let (u2 7) (u2 6 * d 6 + 2 * u1 6);
    Let (u2 8) (u2 7 * d 7 + 2 * u1 7);
    Let (u2 9) (u2 8 * d 8 + 2 * u1 8);
    Let (v2 6) (d 7 * 2 + 2 * v1 7);
    Let (v2 5) (d 6 * v2 6 + 2 * v1 6);
    Let (v2 4) (d 5 * v2 5 + 2 * v1 5);
    Let (v2 3) (d 4 * v2 4 + 2 * v1 4);
    Let (v2 2) (d 3 * v2 3 + 2 * v1 3);
    Let (v2 1) (d 2 * v2 2 + 2 * v1 2);
    Let (v2 0) (d 1 * v2 1 + 2 * v1 1);
    Out 20 (4 * W 0 * (1 * v2 0));
    Out 21 (4 * W 1 * (2 * 1 * v1 1 + u0 1 * v2 1));
    Out 22 (4 * W 2 * (2 * v0 2 + 2 * u1 2 * v1 2 + u0 2 * v2 2));
    Out 23 (4 * W 3 * (u2 3 * v0 3 + 2 * u1 3 * v1 3 + u0 3 * v2 3));
    Out 24 (4 * W 4 * (u2 4 * v0 4 + 2 * u1 4 * v1 4 + u0 4 * v2 4));
    Out 25 (4 * W 5 * (u2 5 * v0 5 + 2 * u1 5 * v1 5 + u0 5 * v2 5));
    Out 26 (4 * W 6 * (u2 6 * v0 6 + 2 * u1 6 * v1 6 + u0 6 * v2 6));
    Out 27 (4 * W 7 * (u2 7 * v0 7 + 2 * u1 7 * v1 7 + u0 7 * 2));
    Out 28 (4 * W 8 * (u2 8 * v0 8 + 2 * u1 8 * 1));
    Out 29 (4 * W 9 * (u2 9 * 1))] |}.

(** gll_lag_11 (poly_imp.h:397-461). *)
Definition gll_lag_11 : prog := {|
  nodes := gllz_11;
  b0 := [
    Let (d 0) (X + 2);
    Let (d 1) (X + 2 * G 0);
    Let (d 2) (X + 2 * G 1);
    Let (d 3) (X + 2 * G 2);
    Let (d 4) (X + 2 * G 3);
    Let (d 5) (X);
    Let (d 6) (X - 2 * G 3);
    Let (d 7) (X - 2 * G 2);
    Let (d 8) (X - 2 * G 1);
    Let (d 9) (X - 2 * G 0);
    Let (d 10) (X - 2);
    Let (u0 1) (1 * d 0);
    Let (u0 2) (u0 1 * d 1);
    Let (u0 3) (u0 2 * d 2);
    Let (u0 4) (u0 3 * d 3);
    Let (u0 5) (u0 4 * d 4);
    Let (u0 6) (u0 5 * d 5);
    Let (u0 7) (u0 6 * d 6);
    Let (u0 8) (u0 7 * d 7);
    Let (u0 9) (u0 8 * d 8);
    Let (u0 10) (u0 9 * d 9);
    Let (v0 9) (d 10 * 1);
    Let (v0 8) (d 9 * v0 9);
    Let (v0 7) (d 8 * v0 8);
    Let (v0 6) (d 7 * v0 7);
    Let (v0 5) (d 6 * v0 6);
    Let (v0 4) (d 5 * v0 5);
    Let (v0 3) (d 4 * v0 4);
    Let (v0 2) (d 3 * v0 3);
    Let (v0 1) (d 2 * v0 2);
    Let (v0 0) (d 1 * v0 1);
    Out 0 (W 0 * 1 * v0 0);
    Out 1 (W 1 * u0 1 * v0 1);
    Out 2 (W 2 * u0 2 * v0 2);
    Out 3 (W 3 * u0 3 * v0 3);
    Out 4 (W 4 * u0 4 * v0 4);
    Out 5 (W 5 * u0 5 * v0 5);
    Out 6 (W 6 * u0 6 * v0 6);
    Out 7 (W 7 * u0 7 * v0 7);
    Out 8 (W 8 * u0 8 * v0 8);
    Out 9 (W 9 * u0 9 * v0 9);
    Out 10 (W 10 * u0 10 * 1)];
  b1 := [
    Let (u1 2) (1 * d 1 + u0 1);
    Let (u1 3) (u1 2 * d 2 + u0 2);
    Let (u1 4) (u1 3 * d 3 + u0 3);
    Let (u1 5) (u1 4 * d 4 + u0 4);
    Let (u1 6) (u1 5 * d 5 + u0 5);
    Let (u1 7) (u1 6 * d 6 + u0 6);
    Let (u1 8) (u1 7 * d 7 + u0 7);
    Let (u1 9) (u1 8 * d 8 + u0 8);
    Let (u1 10) (u1 9 * d 9 + u0 9);
    Let (v1 8) (d 9 * 1 + v0 9);
    Let (v1 7) (d 8 * v1 8 + v0 8);
    Let (v1 6) (d 7 * v1 7 + v0 7);
    Let (v1 5) (d 6 * v1 6 + v0 6);
    Let (v1 4) (d 5 * v1 5 + v0 5);
    Let (v1 3) (d 4 * v1 4 + v0 4);
    Let (v1 2) (d 3 * v1 3 + v0 3);
    Let (v1 1) (d 2 * v1 2 + v0 2);
    Let (v1 0) (d 1 * v1 1 + v0 1);
    Out 11 (2 * W 0 * (v1 0));
    Out 12 (2 * W 1 * (1 * v0 1 + u0 1 * v1 1));
    Out 13 (2 * W 2 * (u1 2 * v0 2 + u0 2 * v1 2));
    Out 14 (2 * W 3 * (u1 3 * v0 3 + u0 3 * v1 3));
    Out 15 (2 * W 4 * (u1 4 * v0 4 + u0 4 * v1 4));
    Out 16 (2 * W 5 * (u1 5 * v0 5 + u0 5 * v1 5));
    Out 17 (2 * W 6 * (u1 6 * v0 6 + u0 6 * v1 6));
    Out 18 (2 * W 7 * (u1 7 * v0 7 + u0 7 * v1 7));
    Out 19 (2 * W 8 * (u1 8 * v0 8 + u0 8 * v1 8));
    Out 20 (2 * W 9 * (u1 9 * v0 9 + u0 9 * 1));
    Out 21 (2 * W 10 * (u1 10))];
  b2 := [
    Let (u2 3) (2 * d 2 + 2 * u1 2);
    Let (u2 4) (u2 3 * d 3 + 2 * u1 3);
    Let (u2 5) (u2 4 * d 4 + 2 * u1 4);
    Let (u2 6) (u2 5 * d 5 + 2 * u1 5);
    Let (u2 7) (u2 6 * d 6 + 2 * u1 6);
    Let (u2 8) (u2 7 * d 7 + 2 * u1 7);
    Let (u2 9) (u2 8 * d 8 + 2 * u1 8);
    Let (u2 10) (u2 9 * d 9 + 2 * u1 9);
    Let (v2 7) (d 8 * 2 + 2 * v1 8);
    Let (v2 6) (d 7 * v2 7 + 2 * v1 7);
    Let (v2 5) (d 6 * v2 6 + 2 * v1 6);
    Let (v2 4) (d 5 * v2 5 + 2 * v1 5);
    Let (v2 3) (d 4 * v2 4 + 2 * v1 4);
    Let (v2 2) (d 3 * v2 3 + 2 * v1 3);
    Let (v2 1) (d 2 * v2 2 + 2 * v1 2);
    Let (v2 0) (d 1 * v2 1 + 2 * v1 1);
    Out 22 (4 * W 0 * (1 * v2 0));
    Out 23 (4 * W 1 * (2 * 1 * v1 1 + u0 1 * v2 1));
    Out 24 (4 * W 2 * (2 * v0 2 + 2 * u1 2 * v1 2 + u0 2 * v2 2));
    Out 25 (4 * W 3 * (u2 3 * v0 3 + 2 * u1 3 * v1 3 + u0 3 * v2 3));
    Out 26 (4 * W 4 * (u2 4 * v0 4 + 2 * u1 4 * v1 4 + u0 4 * v2 4));
    Out 27 (4 * W 5 * (u2 5 * v0 5 + 2 * u1 5 * v1 5 + u0 5 * v2 5));
    Out 28 (4 * W 6 * (u2 6 * v0 6 + 2 * u1 6 * v1 6 + u0 6 * v2 6));
    Out 29 (4 * W 7 * (u2 7 * v0 7 + 2 * u1 7 * v1 7 + u0 7 * v2 7));
    Out 30 (4 * W 8 * (u2 8 * v0 8 + 2 * u1 8 * v1 8 + u0 8 * 2));
    Out 31 (4 * W 9 * (u2 9 * v0 9 + 2 * u1 9 * 1));
    Out 32 (4 * W 10 * (u2 10 * 1))] |}.

(** gll_lag_12 (poly_imp.h:471-539). *)
Definition gll_lag_12 : prog := {|
  nodes := gllz_12;
  b0 := [
    Let (d 0) (X + 2);
    Let (d 1) (X + 2 * G 0);
    Let (d 2) (X + 2 * G 1);
    Let (d 3) (X + 2 * G 2);
    Let (d 4) (X + 2 * G 3);
    Let (d 5) (X + 2 * G 4);
    Let (d 6) (X - 2 * G 4);
    Let (d 7) (X - 2 * G 3);
    Let (d 8) (X - 2 * G 2);
    Let (d 9) (X - 2 * G 1);
    Let (d 10) (X - 2 * G 0);
    Let (d 11) (X - 2);
    Let (u0 1) (1 * d 0);
    Let (u0 2) (u0 1 * d 1);
    Let (u0 3) (u0 2 * d 2);
    Let (u0 4) (u0 3 * d 3);
    Let (u0 5) (u0 4 * d 4);
    Let (u0 6) (u0 5 * d 5);
    Let (u0 7) (u0 6 * d 6);
    Let (u0 8) (u0 7 * d 7);
    Let (u0 9) (u0 8 * d 8);
    Let (u0 10) (u0 9 * d 9);
    Let (u0 11) (u0 10 * d 10);
    Let (v0 10) (d 11 * 1);
    Let (v0 9) (d 10 * v0 10);
    Let (v0 8) (d 9 * v0 9);
    Let (v0 7) (d 8 * v0 8);
    Let (v0 6) (d 7 * v0 7);
    Let (v0 5) (d 6 * v0 6);
    Let (v0 4) (d 5 * v0 5);
    Let (v0 3) (d 4 * v0 4);
    Let (v0 2) (d 3 * v0 3);
    Let (v0 1) (d 2 * v0 2);
    Let (v0 0) (d 1 * v0 1);
    Out 0 (W 0 * 1 * v0 0);
    Out 1 (W 1 * u0 1 * v0 1);
    Out 2 (W 2 * u0 2 * v0 2);
    Out 3 (W 3 * u0 3 * v0 3);
    Out 4 (W 4 * u0 4 * v0 4);
    Out 5 (W 5 * u0 5 * v0 5);
    Out 6 (W 6 * u0 6 * v0 6);
    Out 7 (W 7 * u0 7 * v0 7);
    Out 8 (W 8 * u0 8 * v0 8);
    Out 9 (W 9 * u0 9 * v0 9);
    Out 10 (W 10 * u0 10 * v0 10);
    Out 11 (W 11 * u0 11 * 1)];
  b1 := [
    Let (u1 2) (1 * d 1 + u0 1);
    Let (u1 3) (u1 2 * d 2 + u0 2);
    Let (u1 4) (u1 3 * d 3 + u0 3);
    Let (u1 5) (u1 4 * d 4 + u0 4);
    Let (u1 6) (u1 5 * d 5 + u0 5);
    Let (u1 7) (u1 6 * d 6 + u0 6);
    Let (u1 8) (u1 7 * d 7 + u0 7);
    Let (u1 9) (u1 8 * d 8 + u0 8);
    Let (u1 10) (u1 9 * d 9 + u0 9);
    Let (u1 11) (u1 10 * d 10 + u0 10);
    Let (v1 9) (d 10 * 1 + v0 10);
    Let (v1 8) (d 9 * v1 9 + v0 9);
    Let (v1 7) (d 8 * v1 8 + v0 8);
    Let (v1 6) (d 7 * v1 7 + v0 7);
    Let (v1 5) (d 6 * v1 6 + v0 6);
    Let (v1 4) (d 5 * v1 5 + v0 5);
    Let (v1 3) (d 4 * v1 4 + v0 4);
    Let (v1 2) (d 3 * v1 3 + v0 3);
    Let (v1 1) (d 2 * v1 2 + v0 2);
    Let (v1 0) (d 1 * v1 1 + v0 1);
    Out 12 (2 * W 0 * (v1 0));
    Out 13 (2 * W 1 * (1 * v0 1 + u0 1 * v1 1));
    Out 14 (2 * W 2 * (u1 2 * v0 2 + u0 2 * v1 2));
    Out 15 (2 * W 3 * (u1 3 * v0 3 + u0 3 * v1 3));
    Out 16 (2 * W 4 * (u1 4 * v0 4 + u0 4 * v1 4));
    Out 17 (2 * W 5 * (u1 5 * v0 5 + u0 5 * v1 5));
    Out 18 (2 * W 6 * (u1 6 * v0 6 + u0 6 * v1 6));
    Out 19 (2 * W 7 * (u1 7 * v0 7 + u0 7 * v1 7));
    Out 20 (2 * W 8 * (u1 8 * v0 8 + u0 8 * v1 8));
    Out 21 (2 * W 9 * (u1 9 * v0 9 + u0 9 * v1 9));
    Out 22 (2 * W 10 * (u1 10 * v0 10 + u0 10 * 1));
    Out 23 (2 * W 11 * (u1 11))];
  b2 := [
    Let (u2 3) (2 * d 2 + 2 * u1 2);
    Let (u2 4) (u2 3 * d 3 + 2 * u1 3);
    Let (u2 5) (u2 4 * d 4 + 2 * u1 4);
    Let (u2 6) (u2 5 * d 5 + 2 * u1 5);
    Let (u2 7) (u2 6 * d 6 + 2 * u1 6);
    Let (u2 8) (u2 7 * d 7 + 2 * u1 7);
    Let (u2 9) (u2 8 * d 8 + 2 * u1 8);
    Let (u2 10) (u2 9 * d 9 + 2 * u1 9);
    Let (u2 11) (u2 10 * d 10 + 2 * u1 10);
    Let (v2 8) (d 9 * 2 + 2 * v1 9);
    Let (v2 7) (d 8 * v2 8 + 2 * v1 8);
    Let (v2 6) (d 7 * v2 7 + 2 * v1 7);
    Let (v2 5) (d 6 * v2 6 + 2 * v1 6);
    Let (v2 4) (d 5 * v2 5 + 2 * v1 5);
    Let (v2 3) (d 4 * v2 4 + 2 * v1 4);
    Let (v2 2) (d 3 * v2 3 + 2 * v1 3);
    Let (v2 1) (d 2 * v2 2 + 2 * v1 2);
    Let (v2 0) (d 1 * v2 1 + 2 * v1 1);
    Out 24 (4 * W 0 * (1 * v2 0));
    Out 25 (4 * W 1 * (2 * 1 * v1 1 + u0 1 * v2 1));
    Out 26 (4 * W 2 * (2 * v0 2 + 2 * u1 2 * v1 2 + u0 2 * v2 2));
    Out 27 (4 * W 3 * (u2 3 * v0 3 + 2 * u1 3 * v1 3 + u0 3 * v2 3));
    Out 28 (4 * W 4 * (u2 4 * v0 4 + 2 * u1 4 * v1 4 + u0 4 * v2 4));
    Out 29 (4 * W 5 * (u2 5 * v0 5 + 2 * u1 5 * v1 5 + u0 5 * v2 5));
    Out 30 (4 * W 6 * (u2 6 * v0 6 + 2 * u1 6 * v1 6 + u0 6 * v2 6));
    Out 31 (4 * W 7 * (u2 7 * v0 7 + 2 * u1 7 * v1 7 + u0 7 * v2 7));
    Out 32 (4 * W 8 * (u2 8 * v0 8 + 2 * u1 8 * v1 8 + u0 8 * v2 8));
    Out 33 (4 * W 9 * (u2 9 * v0 9 + 2 * u1 9 * v1 9 + u0 9 * 2));
    Out 34 (4 * W 10 * (u2 10 * v0 10 + 2 * u1 10 * 1));
    Out 35 (4 * W 11 * (u2 11 * 1))] |}.

(** gll_lag_13 (poly_imp.h:549-623). *)
Definition gll_lag_13 : prog := {|
  nodes := gllz_13;
  b0 := [
    Let (d 0) (X + 2);
    Let (d 1) (X + 2 * G 0);
    Let (d 2) (X + 2 * G 1);
    Let (d 3) (X + 2 * G 2);
    Let (d 4) (X + 2 * G 3);
    Let (d 5) (X + 2 * G 4);
    Let (d 6) (X);
    Let (d 7) (X - 2 * G 4);
    Let (d 8) (X - 2 * G 3);
    Let (d 9) (X - 2 * G 2);
    Let (d 10) (X - 2 * G 1);
    Let (d 11) (X - 2 * G 0);
    Let (d 12) (X - 2);
    Let (u0 1) (1 * d 0);
    Let (u0 2) (u0 1 * d 1);
    Let (u0 3) (u0 2 * d 2);
    Let (u0 4) (u0 3 * d 3);
    Let (u0 5) (u0 4 * d 4);
    Let (u0 6) (u0 5 * d 5);
    Let (u0 7) (u0 6 * d 6);
    Let (u0 8) (u0 7 * d 7);
    Let (u0 9) (u0 8 * d 8);
    Let (u0 10) (u0 9 * d 9);
    Let (u0 11) (u0 10 * d 10);
    Let (u0 12) (u0 11 * d 11);
    Let (v0 11) (d 12 * 1);
    Let (v0 10) (d 11 * v0 11);
    Let (v0 9) (d 10 * v0 10);
    Let (v0 8) (d 9 * v0 9);
    Let (v0 7) (d 8 * v0 8);
    Let (v0 6) (d 7 * v0 7);
    Let (v0 5) (d 6 * v0 6);
    Let (v0 4) (d 5 * v0 5);
    Let (v0 3) (d 4 * v0 4);
    Let (v0 2) (d 3 * v0 3);
    Let (v0 1) (d 2 * v0 2);
    Let (v0 0) (d 1 * v0 1);
    Out 0 (W 0 * 1 * v0 0);
    Out 1 (W 1 * u0 1 * v0 1);
    Out 2 (W 2 * u0 2 * v0 2);
    Out 3 (W 3 * u0 3 * v0 3);
    Out 4 (W 4 * u0 4 * v0 4);
    Out 5 (W 5 * u0 5 * v0 5);
    Out 6 (W 6 * u0 6 * v0 6);
    Out 7 (W 7 * u0 7 * v0 7);
    Out 8 (W 8 * u0 8 * v0 8);
    Out 9 (W 9 * u0 9 * v0 9);
    Out 10 (W 10 * u0 10 * v0 10);
    Out 11 (W 11 * u0 11 * v0 11);
    Out 12 (W 12 * u0 12 * 1)];
  b1 := [
    Let (u1 2) (1 * d 1 + u0 1);
    Let (u1 3) (u1 2 * d 2 + u0 2);
    Let (u1 4) (u1 3 * d 3 + u0 3);
    Let (u1 5) (u1 4 * d 4 + u0 4);
    Let (u1 6) (u1 5 * d 5 + u0 5);
    Let (u1 7) (u1 6 * d 6 + u0 6);
    Let (u1 8) (u1 7 * d 7 + u0 7);
    Let (u1 9) (u1 8 * d 8 + u0 8);
    Let (u1 10) (u1 9 * d 9 + u0 9);
    Let (u1 11) (u1 10 * d 10 + u0 10);
    Let (u1 12) (u1 11 * d 11 + u0 11);
    Let (v1 10) (d 11 * 1 + v0 11);
    Let (v1 9) (d 10 * v1 10 + v0 10);
    Let (v1 8) (d 9 * v1 9 + v0 9);
    Let (v1 7) (d 8 * v1 8 + v0 8);
    Let (v1 6) (d 7 * v1 7 + v0 7);
    Let (v1 5) (d 6 * v1 6 + v0 6);
    Let (v1 4) (d 5 * v1 5 + v0 5);
    Let (v1 3) (d 4 * v1 4 + v0 4);
    Let (v1 2) (d 3 * v1 3 + v0 3);
    Let (v1 1) (d 2 * v1 2 + v0 2);
    Let (v1 0) (d 1 * v1 1 + v0 1);
    Out 13 (2 * W 0 * (v1 0));
    Out 14 (2 * W 1 * (1 * v0 1 + u0 1 * v1 1));
    Out 15 (2 * W 2 * (u1 2 * v0 2 + u0 2 * v1 2));
    Out 16 (2 * W 3 * (u1 3 * v0 3 + u0 3 * v1 3));
    Out 17 (2 * W 4 * (u1 4 * v0 4 + u0 4 * v1 4));
    Out 18 (2 * W 5 * (u1 5 * v0 5 + u0 5 * v1 5));
    Out 19 (2 * W 6 * (u1 6 * v0 6 + u0 6 * v1 6));
    Out 20 (2 * W 7 * (u1 7 * v0 7 + u0 7 * v1 7));
    Out 21 (2 * W 8 * (u1 8 * v0 8 + u0 8 * v1 8));
    Out 22 (2 * W 9 * (u1 9 * v0 9 + u0 9 * v1 9));
    Out 23 (2 * W 10 * (u1 10 * v0 10 + u0 10 * v1 10));
    Out 24 (2 * W 11 * (u1 11 * v0 11 + u0 11 * 1));
    Out 25 (2 * W 12 * (u1 12))];
  b2 := [
    Let (u2 3) (2 * d 2 + 2 * u1 2);
    Let (u2 4) (u2 3 * d 3 + 2 * u1 3);
    Let (u2 5) (u2 4 * d 4 + 2 * u1 4);
    Let (u2 6) (u2 5 * d 5 + 2 * u1 5);
    Let (u2 7) (u2 6 * d 6 + 2 * u1 6);
    Let (u2 8) (u2 7 * d 7 + 2 * u1 7);
    Let (u2 9) (u2 8 * d 8 + 2 * u1 8);
    Let (u2 10) (u2 9 * d 9 + 2 * u1 9);
    Let (u2 11) (u2 10 * d 10 + 2 * u1 10);
    Let (u2 12) (u2 11 * d 11 + 2 * u1 11);
    Let (v2 9) (d 10 * 2 + 2 * v1 10);
    Let (v2 8) (d 9 * v2 9 + 2 * v1 9);
    Let (v2 7) (d 8 * v2 8 + 2 * v1 8);
    Let (v2 6) (d 7 * v2 7 + 2 * v1 7);
    Let (v2 5) (d 6 * v2 6 + 2 * v1 6);
    Let (v2 4) (d 5 * v2 5 + 2 * v1 5);
    Let (v2 3) (d 4 * v2 4 + 2 * v1 4);
    Let (v2 2) (d 3 * v2 3 + 2 * v1 3);
    Let (v2 1) (d 2 * v2 2 + 2 * v1 2);
    Let (v2 0) (d 1 * v2 1 + 2 * v1 1);
    Out 26 (4 * W 0 * (1 * v2 0));
    Out 27 (4 * W 1 * (2 * 1 * v1 1 + u0 1 * v2 1));
    Out 28 (4 * W 2 * (2 * v0 2 + 2 * u1 2 * v1 2 + u0 2 * v2 2));
    Out 29 (4 * W 3 * (u2 3 * v0 3 + 2 * u1 3 * v1 3 + u0 3 * v2 3));
    Out 30 (4 * W 4 * (u2 4 * v0 4 + 2 * u1 4 * v1 4 + u0 4 * v2 4));
    Out 31 (4 * W 5 * (u2 5 * v0 5 + 2 * u1 5 * v1 5 + u0 5 * v2 5));
    Out 32 (4 * W 6 * (u2 6 * v0 6 + 2 * u1 6 * v1 6 + u0 6 * v2 6));
    Out 33 (4 * W 7 * (u2 7 * v0 7 + 2 * u1 7 * v1 7 + u0 7 * v2 7));
    Out 34 (4 * W 8 * (u2 8 * v0 8 + 2 * u1 8 * v1 8 + u0 8 * v2 8));
    Out 35 (4 * W 9 * (u2 9 * v0 9 + 2 * u1 9 * v1 9 + u0 9 * v2 9));
    Out 36 (4 * W 10 * (u2 10 * v0 10 + 2 * u1 10 * v1 10 + u0 10 * 2));
    Out 37 (4 * W 11 * (u2 11 * v0 11 + 2 * u1 11 * 1));
    Out 38 (4 * W 12 * (u2 12 * 1))] |}.

(** gll_lag_14 (poly_imp.h:634-714). *)
Definition gll_lag_14 : prog := {|
  nodes := gllz_14;
  b0 := [
    Let (d 0) (X + 2);
    Let (d 1) (X + 2 * G 0);
    Let (d 2) (X + 2 * G 1);
    Let (d 3) (X + 2 * G 2);
    Let (d 4) (X + 2 * G 3);
    Let (d 5) (X + 2 * G 4);
    Let (d 6) (X + 2 * G 5);
    Let (d 7) (X - 2 * G 5);
    Let (d 8) (X - 2 * G 4);
    Let (d 9) (X - 2 * G 3);
    Let (d 10) (X - 2 * G 2);
    Let (d 11) (X - 2 * G 1);
    Let (d 12) (X - 2 * G 0);
    Let (d 13) (X - 2);
    Let (u0 1) (1 * d 0);
    Let (u0 2) (u0 1 * d 1);
    Let (u0 3) (u0 2 * d 2);
    Let (u0 4) (u0 3 * d 3);
    Let (u0 5) (u0 4 * d 4);
    Let (u0 6) (u0 5 * d 5);
    Let (u0 7) (u0 6 * d 6);
    Let (u0 8) (u0 7 * d 7);
    Let (u0 9) (u0 8 * d 8);
    Let (u0 10) (u0 9 * d 9);
    Let (u0 11) (u0 10 * d 10);
    Let (u0 12) (u0 11 * d 11);
    Let (u0 13) (u0 12 * d 12);
    Let (v0 12) (d 13 * 1);
    Let (v0 11) (d 12 * v0 12);
    Let (v0 10) (d 11 * v0 11);
    Let (v0 9) (d 10 * v0 10);
    Let (v0 8) (d 9 * v0 9);
    Let (v0 7) (d 8 * v0 8);
    Let (v0 6) (d 7 * v0 7);
    Let (v0 5) (d 6 * v0 6);
    Let (v0 4) (d 5 * v0 5);
    Let (v0 3) (d 4 * v0 4);
    Let (v0 2) (d 3 * v0 3);
    Let (v0 1) (d 2 * v0 2);
    Let (v0 0) (d 1 * v0 1);
    Out 0 (W 0 * 1 * v0 0);
    Out 1 (W 1 * u0 1 * v0 1);
    Out 2 (W 2 * u0 2 * v0 2);
    Out 3 (W 3 * u0 3 * v0 3);
    Out 4 (W 4 * u0 4 * v0 4);
    Out 5 (W 5 * u0 5 * v0 5);
    Out 6 (W 6 * u0 6 * v0 6);
    Out 7 (W 7 * u0 7 * v0 7);
    Out 8 (W 8 * u0 8 * v0 8);
    Out 9 (W 9 * u0 9 * v0 9);
    Out 10 (W 10 * u0 10 * v0 10);
    Out 11 (W 11 * u0 11 * v0 11);
    Out 12 (W 12 * u0 12 * v0 12);
    Out 13 (W 13 * u0 13 * 1)];
  b1 := [
    Let (u1 2) (1 * d 1 + u0 1);
    Let (u1 3) (u1 2 * d 2 + u0 2);
    Let (u1 4) (u1 3 * d 3 + u0 3);
    Let (u1 5) (u1 4 * d 4 + u0 4);
    Let (u1 6) (u1 5 * d 5 + u0 5);
    Let (u1 7) (u1 6 * d 6 + u0 6);
    Let (u1 8) (u1 7 * d 7 + u0 7);
    Let (u1 9) (u1 8 * d 8 + u0 8);
    Let (u1 10) (u1 9 * d 9 + u0 9);
    Let (u1 11) (u1 10 * d 10 + u0 10);
    Let (u1 12) (u1 11 * d 11 + u0 11);
    Let (u1 13) (u1 12 * d 12 + u0 12);
    Let (v1 11) (d 12 * 1 + v0 12);
    Let (v1 10) (d 11 * v1 11 + v0 11);
    Let (v1 9) (d 10 * v1 10 + v0 10);
    Let (v1 8) (d 9 * v1 9 + v0 9);
    Let (v1 7) (d 8 * v1 8 + v0 8);
    Let (v1 6) (d 7 * v1 7 + v0 7);
    Let (v1 5) (d 6 * v1 6 + v0 6);
    Let (v1 4) (d 5 * v1 5 + v0 5);
    Let (v1 3) (d 4 * v1 4 + v0 4);
    Let (v1 2) (d 3 * v1 3 + v0 3);
    Let (v1 1) (d 2 * v1 2 + v0 2);
    Let (v1 0) (d 1 * v1 1 + v0 1);
    Out 14 (2 * W 0 * (v1 0));
    Out 15 (2 * W 1 * (1 * v0 1 + u0 1 * v1 1));
    Out 16 (2 * W 2 * (u1 2 * v0 2 + u0 2 * v1 2));
    Out 17 (2 * W 3 * (u1 3 * v0 3 + u0 3 * v1 3));
    Out 18 (2 * W 4 * (u1 4 * v0 4 + u0 4 * v1 4));
    Out 19 (2 * W 5 * (u1 5 * v0 5 + u0 5 * v1 5));
    Out 20 (2 * W 6 * (u1 6 * v0 6 + u0 6 * v1 6));
    Out 21 (2 * W 7 * (u1 7 * v0 7 + u0 7 * v1 7));
    Out 22 (2 * W 8 * (u1 8 * v0 8 + u0 8 * v1 8));
    Out 23 (2 * W 9 * (u1 9 * v0 9 + u0 9 * v1 9));
    Out 24 (2 * W 10 * (u1 10 * v0 10 + u0 10 * v1 10));
    Out 25 (2 * W 11 * (u1 11 * v0 11 + u0 11 * v1 11));
    Out 26 (2 * W 12 * (u1 12 * v0 12 + u0 12 * 1));
    Out 27 (2 * W 13 * (u1 13))];
  b2 := [
    Let (u2 3) (2 * d 2 + 2 * u1 2);
    Let (u2 4) (u2 3 * d 3 + 2 * u1 3);
    Let (u2 5) (u2 4 * d 4 + 2 * u1 4);
    Let (u2 6) (u2 5 * d 5 + 2 * u1 5);
    Let (u2 7) (u2 6 * d 6 + 2 * u1 6);
    Let (u2 8) (u2 7 * d 7 + 2 * u1 7);
    Let (u2 9) (u2 8 * d 8 + 2 * u1 8);
    Let (u2 10) (u2 9 * d 9 + 2 * u1 9);
    Let (u2 11) (u2 10 * d 10 + 2 * u1 10);
    Let (u2 12) (u2 11 * d 11 + 2 * u1 11);
    Let (u2 13) (u2 12 * d 12 + 2 * u1 12);
    Let (v2 10) (d 11 * 2 + 2 * v1 11);
    Let (v2 9) (d 10 * v2 10 + 2 * v1 10);
    Let (v2 8) (d 9 * v2 9 + 2 * v1 9);
    Let (v2 7) (d 8 * v2 8 + 2 * v1 8);
    Let (v2 6) (d 7 * v2 7 + 2 * v1 7);
    Let (v2 5) (d 6 * v2 6 + 2 * v1 6);
    Let (v2 4) (d 5 * v2 5 + 2 * v1 5);
    Let (v2 3) (d 4 * v2 4 + 2 * v1 4);
    Let (v2 2) (d 3 * v2 3 + 2 * v1 3);
    Let (v2 1) (d 2 * v2 2 + 2 * v1 2);
    Let (v2 0) (d 1 * v2 1 + 2 * v1 1);
    Out 28 (4 * W 0 * (1 * v2 0));
    Out 29 (4 * W 1 * (2 * 1 * v1 1 + u0 1 * v2 1));
    Out 30 (4 * W 2 * (2 * v0 2 + 2 * u1 2 * v1 2 + u0 2 * v2 2));
    Out 31 (4 * W 3 * (u2 3 * v0 3 + 2 * u1 3 * v1 3 + u0 3 * v2 3));
    Out 32 (4 * W 4 * (u2 4 * v0 4 + 2 * u1 4 * v1 4 + u0 4 * v2 4));
    Out 33 (4 * W 5 * (u2 5 * v0 5 + 2 * u1 5 * v1 5 + u0 5 * v2 5));
    Out 34 (4 * W 6 * (u2 6 * v0 6 + 2 * u1 6 * v1 6 + u0 6 * v2 6));
    Out 35 (4 * W 7 * (u2 7 * v0 7 + 2 * u1 7 * v1 7 + u0 7 * v2 7));
    Out 36 (4 * W 8 * (u2 8 * v0 8 + 2 * u1 8 * v1 8 + u0 8 * v2 8));
    Out 37 (4 * W 9 * (u2 9 * v0 9 + 2 * u1 9 * v1 9 + u0 9 * v2 9));
    Out 38 (4 * W 10 * (u2 10 * v0 10 + 2 * u1 10 * v1 10 + u0 10 * v2 10));
    Out 39 (4 * W 11 * (u2 11 * v0 11 + 2 * u1 11 * v1 11 + u0 11 * 2));
    Out 40 (4 * W 12 * (u2 12 * v0 12 + 2 * u1 12 * 1));
    Out 41 (4 * W 13 * (u2 13 * 1))] |}.

(** gll_lag_15 (poly_imp.h:725-809). *)
Definition gll_lag_15 : prog := {|
  nodes := gllz_15;
  b0 := [
    Let (d 0) (X + 2);
    Let (d 1) (X + 2 * G 0);
    Let (d 2) (X + 2 * G 1);
    Let (d 3) (X + 2 * G 2);
    Let (d 4) (X + 2 * G 3);
    Let (d 5) (X + 2 * G 4);
    Let (d 6) (X + 2 * G 5);
    Let (d 7) (X);
    Let (d 8) (X - 2 * G 5);
    Let (d 9) (X - 2 * G 4);
    Let (d 10) (X - 2 * G 3);
    Let (d 11) (X - 2 * G 2);
    Let (d 12) (X - 2 * G 1);
    Let (d 13) (X - 2 * G 0);
    Let (d 14) (X - 2);
    Let (u0 1) (1 * d 0);
    Let (u0 2) (u0 1 * d 1);
    Let (u0 3) (u0 2 * d 2);
    Let (u0 4) (u0 3 * d 3);
    Let (u0 5) (u0 4 * d 4);
    Let (u0 6) (u0 5 * d 5);
    Let (u0 7) (u0 6 * d 6);
    Let (u0 8) (u0 7 * d 7);
    Let (u0 9) (u0 8 * d 8);
    Let (u0 10) (u0 9 * d 9);
    Let (u0 11) (u0 10 * d 10);
    Let (u0 12) (u0 11 * d 11);
    Let (u0 13) (u0 12 * d 12);
    Let (u0 14) (u0 13 * d 13);
    Let (v0 13) (d 14 * 1);
    Let (v0 12) (d 13 * v0 13);
    Let (v0 11) (d 12 * v0 12);
    Let (v0 10) (d 11 * v0 11);
    Let (v0 9) (d 10 * v0 10);
    Let (v0 8) (d 9 * v0 9);
    Let (v0 7) (d 8 * v0 8);
    Let (v0 6) (d 7 * v0 7);
    Let (v0 5) (d 6 * v0 6);
    Let (v0 4) (d 5 * v0 5);
    Let (v0 3) (d 4 * v0 4);
    Let (v0 2) (d 3 * v0 3);
    Let (v0 1) (d 2 * v0 2);
    Let (v0 0) (d 1 * v0 1);
    Out 0 (W 0 * 1 * v0 0);
    Out 1 (W 1 * u0 1 * v0 1);
    Out 2 (W 2 * u0 2 * v0 2);
    Out 3 (W 3 * u0 3 * v0 3);
    Out 4 (W 4 * u0 4 * v0 4);
    Out 5 (W 5 * u0 5 * v0 5);
    Out 6 (W 6 * u0 6 * v0 6);
    Out 7 (W 7 * u0 7 * v0 7);
    Out 8 (W 8 * u0 8 * v0 8);
    Out 9 (W 9 * u0 9 * v0 9);
    Out 10 (W 10 * u0 10 * v0 10);
    Out 11 (W 11 * u0 11 * v0 11);
    Out 12 (W 12 * u0 12 * v0 12);
    Out 13 (W 13 * u0 13 * v0 13);
    Out 14 (W 14 * u0 14 * 1)];
  b1 := [
    Let (u1 2) (1 * d 1 + u0 1);
    Let (u1 3) (u1 2 * d 2 + u0 2);
    Let (u1 4) (u1 3 * d 3 + u0 3);
    Let (u1 5) (u1 4 * d 4 + u0 4);
    Let (u1 6) (u1 5 * d 5 + u0 5);
    Let (u1 7) (u1 6 * d 6 + u0 6);
    Let (u1 8) (u1 7 * d 7 + u0 7);
    Let (u1 9) (u1 8 * d 8 + u0 8);
    Let (u1 10) (u1 9 * d 9 + u0 9);
    Let (u1 11) (u1 10 * d 10 + u0 10);
    Let (u1 12) (u1 11 * d 11 + u0 11);
    Let (u1 13) (u1 12 * d 12 + u0 12);
    Let (u1 14) (u1 13 * d 13 + u0 13);
    Let (v1 12) (d 13 * 1 + v0 13);
    Let (v1 11) (d 12 * v1 12 + v0 12);
    Let (v1 10) (d 11 * v1 11 + v0 11);
    Let (v1 9) (d 10 * v1 10 + v0 10);
    Let (v1 8) (d 9 * v1 9 + v0 9);
    Let (v1 7) (d 8 * v1 8 + v0 8);
    Let (v1 6) (d 7 * v1 7 + v0 7);
    Let (v1 5) (d 6 * v1 6 + v0 6);
    Let (v1 4) (d 5 * v1 5 + v0 5);
    Let (v1 3) (d 4 * v1 4 + v0 4);
    Let (v1 2) (d 3 * v1 3 + v0 3);
    Let (v1 1) (d 2 * v1 2 + v0 2);
    Let (v1 0) (d 1 * v1 1 + v0 1);
    Out 15 (2 * W 0 * (v1 0));
    Out 16 (2 * W 1 * (1 * v0 1 + u0 1 * v1 1));
    Out 17 (2 * W 2 * (u1 2 * v0 2 + u0 2 * v1 2));
    Out 18 (2 * W 3 * (u1 3 * v0 3 + u0 3 * v1 3));
    Out 19 (2 * W 4 * (u1 4 * v0 4 + u0 4 * v1 4));
    Out 20 (2 * W 5 * (u1 5 * v0 5 + u0 5 * v1 5));
    Out 21 (2 * W 6 * (u1 6 * v0 6 + u0 6 * v1 6));
    Out 22 (2 * W 7 * (u1 7 * v0 7 + u0 7 * v1 7));
    Out 23 (2 * W 8 * (u1 8 * v0 8 + u0 8 * v1 8));
    Out 24 (2 * W 9 * (u1 9 * v0 9 + u0 9 * v1 9));
    Out 25 (2 * W 10 * (u1 10 * v0 10 + u0 10 * v1 10));
    Out 26 (2 * W 11 * (u1 11 * v0 11 + u0 11 * v1 11));
    Out 27 (2 * W 12 * (u1 12 * v0 12 + u0 12 * v1 12));
    Out 28 (2 * W 13 * (u1 13 * v0 13 + u0 13 * 1));
    Out 29 (2 * W 14 * (u1 14))];
  b2 := [
    Let (u2 3) (2 * d 2 + 2 * u1 2);
    Let (u2 4) (u2 3 * d 3 + 2 * u1 3);
    Let (u2 5) (u2 4 * d 4 + 2 * u1 4);
    Let (u2 6) (u2 5 * d 5 + 2 * u1 5);
    Let (u2 7) (u2 6 * d 6 + 2 * u1 6);
    Let (u2 8) (u2 7 * d 7 + 2 * u1 7);
    Let (u2 9) (u2 8 * d 8 + 2 * u1 8);
    Let (u2 10) (u2 9 * d 9 + 2 * u1 9);
    Let (u2 11) (u2 10 * d 10 + 2 * u1 10);
    Let (u2 12) (u2 11 * d 11 + 2 * u1 11);
    Let (u2 13) (u2 12 * d 12 + 2 * u1 12);
    Let (u2 14) (u2 13 * d 13 + 2 * u1 13);
    Let (v2 11) (d 12 * 2 + 2 * v1 12);
    Let (v2 10) (d 11 * v2 11 + 2 * v1 11);
    Let (v2 9) (d 10 * v2 10 + 2 * v1 10);
    Let (v2 8) (d 9 * v2 9 + 2 * v1 9);
    Let (v2 7) (d 8 * v2 8 + 2 * v1 8);
    Let (v2 6) (d 7 * v2 7 + 2 * v1 7);
    Let (v2 5) (d 6 * v2 6 + 2 * v1 6);
    Let (v2 4) (d 5 * v2 5 + 2 * v1 5);
    Let (v2 3) (d 4 * v2 4 + 2 * v1 4);
    Let (v2 2) (d 3 * v2 3 + 2 * v1 3);
    Let (v2 1) (d 2 * v2 2 + 2 * v1 2);
    Let (v2 0) (d 1 * v2 1 + 2 * v1 1);
    Out 30 (4 * W 0 * (1 * v2 0));
    Out 31 (4 * W 1 * (2 * 1 * v1 1 + u0 1 * v2 1));
    Out 32 (4 * W 2 * (2 * v0 2 + 2 * u1 2 * v1 2 + u0 2 * v2 2));
    Out 33 (4 * W 3 * (u2 3 * v0 3 + 2 * u1 3 * v1 3 + u0 3 * v2 3));
    Out 34 (4 * W 4 * (u2 4 * v0 4 + 2 * u1 4 * v1 4 + u0 4 * v2 4));
    Out 35 (4 * W 5 * (u2 5 * v0 5 + 2 * u1 5 * v1 5 + u0 5 * v2 5));
    Out 36 (4 * W 6 * (u2 6 * v0 6 + 2 * u1 6 * v1 6 + u0 6 * v2 6));
    Out 37 (4 * W 7 * (u2 7 * v0 7 + 2 * u1 7 * v1 7 + u0 7 * v2 7));
    Out 38 (4 * W 8 * (u2 8 * v0 8 + 2 * u1 8 * v1 8 + u0 8 * v2 8));
    Out 39 (4 * W 9 * (u2 9 * v0 9 + 2 * u1 9 * v1 9 + u0 9 * v2 9));
    Out 40 (4 * W 10 * (u2 10 * v0 10 + 2 * u1 10 * v1 10 + u0 10 * v2 10));
    Out 41 (4 * W 11 * (u2 11 * v0 11 + 2 * u1 11 * v1 11 + u0 11 * v2 11));
    Out 42 (4 * W 12 * (u2 12 * v0 12 + 2 * u1 12 * v1 12 + u0 12 * 2));
    Out 43 (4 * W 13 * (u2 13 * v0 13 + 2 * u1 13 * 1));
    Out 44 (4 * W 14 * (u2 14 * 1))] |}.

(** gll_lag_16 (poly_imp.h:821-911). *)
Definition gll_lag_16 : prog := {|
  nodes := gllz_16;
  b0 := [
    Let (d 0) (X + 2);
    Let (d 1) (X + 2 * G 0);
    Let (d 2) (X + 2 * G 1);
    Let (d 3) (X + 2 * G 2);
    Let (d 4) (X + 2 * G 3);
    Let (d 5) (X + 2 * G 4);
    Let (d 6) (X + 2 * G 5);
    Let (d 7) (X + 2 * G 6);
    Let (d 8) (X - 2 * G 6);
    Let (d 9) (X - 2 * G 5);
    Let (d 10) (X - 2 * G 4);
    Let (d 11) (X - 2 * G 3);
    Let (d 12) (X - 2 * G 2);
    Let (d 13) (X - 2 * G 1);
    Let (d 14) (X - 2 * G 0);
    Let (d 15) (X - 2);
    Let (u0 1) (1 * d 0);
    Let (u0 2) (u0 1 * d 1);
    Let (u0 3) (u0 2 * d 2);
    Let (u0 4) (u0 3 * d 3);
    Let (u0 5) (u0 4 * d 4);
    Let (u0 6) (u0 5 * d 5);
    Let (u0 7) (u0 6 * d 6);
    Let (u0 8) (u0 7 * d 7);
    Let (u0 9) (u0 8 * d 8);
    Let (u0 10) (u0 9 * d 9);
    Let (u0 11) (u0 10 * d 10);
    Let (u0 12) (u0 11 * d 11);
    Let (u0 13) (u0 12 * d 12);
    Let (u0 14) (u0 13 * d 13);
    Let (u0 15) (u0 14 * d 14);
    Let (v0 14) (d 15 * 1);
    Let (v0 13) (d 14 * v0 14);
    Let (v0 12) (d 13 * v0 13);
    Let (v0 11) (d 12 * v0 12);
    Let (v0 10) (d 11 * v0 11);
    Let (v0 9) (d 10 * v0 10);
    Let (v0 8) (d 9 * v0 9);
    Let (v0 7) (d 8 * v0 8);
    Let (v0 6) (d 7 * v0 7);
    Let (v0 5) (d 6 * v0 6);
    Let (v0 4) (d 5 * v0 5);
    Let (v0 3) (d 4 * v0 4);
    Let (v0 2) (d 3 * v0 3);
    Let (v0 1) (d 2 * v0 2);
    Let (v0 0) (d 1 * v0 1);
    Out 0 (W 0 * 1 * v0 0);
    Out 1 (W 1 * u0 1 * v0 1);
    Out 2 (W 2 * u0 2 * v0 2);
    Out 3 (W 3 * u0 3 * v0 3);
    Out 4 (W 4 * u0 4 * v0 4);
    Out 5 (W 5 * u0 5 * v0 5);
    Out 6 (W 6 * u0 6 * v0 6);
    Out 7 (W 7 * u0 7 * v0 7);
    Out 8 (W 8 * u0 8 * v0 8);
    Out 9 (W 9 * u0 9 * v0 9);
    Out 10 (W 10 * u0 10 * v0 10);
    Out 11 (W 11 * u0 11 * v0 11);
    Out 12 (W 12 * u0 12 * v0 12);
    Out 13 (W 13 * u0 13 * v0 13);
    Out 14 (W 14 * u0 14 * v0 14);
    Out 15 (W 15 * u0 15 * 1)];
  b1 := [
    Let (u1 2) (1 * d 1 + u0 1);
    Let (u1 3) (u1 2 * d 2 + u0 2);
    Let (u1 4) (u1 3 * d 3 + u0 3);
    Let (u1 5) (u1 4 * d 4 + u0 4);
    Let (u1 6) (u1 5 * d 5 + u0 5);
    Let (u1 7) (u1 6 * d 6 + u0 6);
    Let (u1 8) (u1 7 * d 7 + u0 7);
    Let (u1 9) (u1 8 * d 8 + u0 8);
    Let (u1 10) (u1 9 * d 9 + u0 9);
    Let (u1 11) (u1 10 * d 10 + u0 10);
    Let (u1 12) (u1 11 * d 11 + u0 11);
    Let (u1 13) (u1 12 * d 12 + u0 12);
    Let (u1 14) (u1 13 * d 13 + u0 13);
    Let (u1 15) (u1 14 * d 14 + u0 14);
    Let (v1 13) (d 14 * 1 + v0 14);
    Let (v1 12) (d 13 * v1 13 + v0 13);
    Let (v1 11) (d 12 * v1 12 + v0 12);
    Let (v1 10) (d 11 * v1 11 + v0 11);
    Let (v1 9) (d 10 * v1 10 + v0 10);
    Let (v1 8) (d 9 * v1 9 + v0 9);
    Let (v1 7) (d 8 * v1 8 + v0 8);
    Let (v1 6) (d 7 * v1 7 + v0 7);
    Let (v1 5) (d 6 * v1 6 + v0 6);
    Let (v1 4) (d 5 * v1 5 + v0 5);
    Let (v1 3) (d 4 * v1 4 + v0 4);
    Let (v1 2) (d 3 * v1 3 + v0 3);
    Let (v1 1) (d 2 * v1 2 + v0 2);
    Let (v1 0) (d 1 * v1 1 + v0 1);
    Out 16 (2 * W 0 * (v1 0));
    Out 17 (2 * W 1 * (1 * v0 1 + u0 1 * v1 1));
    Out 18 (2 * W 2 * (u1 2 * v0 2 + u0 2 * v1 2));
    Out 19 (2 * W 3 * (u1 3 * v0 3 + u0 3 * v1 3));
    Out 20 (2 * W 4 * (u1 4 * v0 4 + u0 4 * v1 4));
    Out 21 (2 * W 5 * (u1 5 * v0 5 + u0 5 * v1 5));
    Out 22 (2 * W 6 * (u1 6 * v0 6 + u0 6 * v1 6));
    Out 23 (2 * W 7 * (u1 7 * v0 7 + u0 7 * v1 7));
    Out 24 (2 * W 8 * (u1 8 * v0 8 + u0 8 * v1 8));
    Out 25 (2 * W 9 * (u1 9 * v0 9 + u0 9 * v1 9));
    Out 26 (2 * W 10 * (u1 10 * v0 10 + u0 10 * v1 10));
    Out 27 (2 * W 11 * (u1 11 * v0 11 + u0 11 * v1 11));
    Out 28 (2 * W 12 * (u1 12 * v0 12 + u0 12 * v1 12));
    Out 29 (2 * W 13 * (u1 13 * v0 13 + u0 13 * v1 13));
    Out 30 (2 * W 14 * (u1 14 * v0 14 + u0 14 * 1));
    Out 31 (2 * W 15 * (u1 15))];
  b2 := [
    Let (u2 3) (2 * d 2 + 2 * u1 2);
    Let (u2 4) (u2 3 * d 3 + 2 * u1 3);
    Let (u2 5) (u2 4 * d 4 + 2 * u1 4);
    Let (u2 6) (u2 5 * d 5 + 2 * u1 5);
    Let (u2 7) (u2 6 * d 6 + 2 * u1 6);
    Let (u2 8) (u2 7 * d 7 + 2 * u1 7);
    Let (u2 9) (u2 8 * d 8 + 2 * u1 8);
    Let (u2 10) (u2 9 * d 9 + 2 * u1 9);
    Let (u2 11) (u2 10 * d 10 + 2 * u1 10);
    Let (u2 12) (u2 11 * d 11 + 2 * u1 11);
    Let (u2 13) (u2 12 * d 12 + 2 * u1 12);
    Let (u2 14) (u2 13 * d 13 + 2 * u1 13);
    Let (u2 15) (u2 14 * d 14 + 2 * u1 14);
    Let (v2 12) (d 13 * 2 + 2 * v1 13);
    Let (v2 11) (d 12 * v2 12 + 2 * v1 12);
    Let (v2 10) (d 11 * v2 11 + 2 * v1 11);
    Let (v2 9) (d 10 * v2 10 + 2 * v1 10);
    Let (v2 8) (d 9 * v2 9 + 2 * v1 9);
    Let (v2 7) (d 8 * v2 8 + 2 * v1 8);
    Let (v2 6) (d 7 * v2 7 + 2 * v1 7);
    Let (v2 5) (d 6 * v2 6 + 2 * v1 6);
    Let (v2 4) (d 5 * v2 5 + 2 * v1 5);
    Let (v2 3) (d 4 * v2 4 + 2 * v1 4);
    Let (v2 2) (d 3 * v2 3 + 2 * v1 3);
    Let (v2 1) (d 2 * v2 2 + 2 * v1 2);
    Let (v2 0) (d 1 * v2 1 + 2 * v1 1);
    Out 32 (4 * W 0 * (1 * v2 0));
    Out 33 (4 * W 1 * (2 * 1 * v1 1 + u0 1 * v2 1));
    Out 34 (4 * W 2 * (2 * v0 2 + 2 * u1 2 * v1 2 + u0 2 * v2 2));
    Out 35 (4 * W 3 * (u2 3 * v0 3 + 2 * u1 3 * v1 3 + u0 3 * v2 3));
    Out 36 (4 * W 4 * (u2 4 * v0 4 + 2 * u1 4 * v1 4 + u0 4 * v2 4));
    Out 37 (4 * W 5 * (u2 5 * v0 5 + 2 * u1 5 * v1 5 + u0 5 * v2 5));
    Out 38 (4 * W 6 * (u2 6 * v0 6 + 2 * u1 6 * v1 6 + u0 6 * v2 6));
    Out 39 (4 * W 7 * (u2 7 * v0 7 + 2 * u1 7 * v1 7 + u0 7 * v2 7));
    Out 40 (4 * W 8 * (u2 8 * v0 8 + 2 * u1 8 * v1 8 + u0 8 * v2 8));
    Out 41 (4 * W 9 * (u2 9 * v0 9 + 2 * u1 9 * v1 9 + u0 9 * v2 9));
    Out 42 (4 * W 10 * (u2 10 * v0 10 + 2 * u1 10 * v1 10 + u0 10 * v2 10));
    Out 43 (4 * W 11 * (u2 11 * v0 11 + 2 * u1 11 * v1 11 + u0 11 * v2 11));
    Out 44 (4 * W 12 * (u2 12 * v0 12 + 2 * u1 12 * v1 12 + u0 12 * v2 12));
    Out 45 (4 * W 13 * (u2 13 * v0 13 + 2 * u1 13 * v1 13 + u0 13 * 2));
    Out 46 (4 * W 14 * (u2 14 * v0 14 + 2 * u1 14 * 1));
    Out 47 (4 * W 15 * (u2 15 * 1))] |}.

(** gll_lag_17 (poly_imp.h:923-1019). *)
Definition gll_lag_17 : prog := {|
  nodes := gllz_17;
  b0 := [
    Let (d 0) (X + 2);
    Let (d 1) (X + 2 * G 0);
    Let (d 2) (X + 2 * G 1);
    Let (d 3) (X + 2 * G 2);
    Let (d 4) (X + 2 * G 3);
    Let (d 5) (X + 2 * G 4);
    Let (d 6) (X + 2 * G 5);
    Let (d 7) (X + 2 * G 6);
    Let (d 8) (X);
    Let (d 9) (X - 2 * G 6);
    Let (d 10) (X - 2 * G 5);
    Let (d 11) (X - 2 * G 4);
    Let (d 12) (X - 2 * G 3);
    Let (d 13) (X - 2 * G 2);
    Let (d 14) (X - 2 * G 1);
    Let (d 15) (X - 2 * G 0);
    Let (d 16) (X - 2);
    Let (u0 1) (1 * d 0);
    Let (u0 2) (u0 1 * d 1);
    Let (u0 3) (u0 2 * d 2);
    Let (u0 4) (u0 3 * d 3);
    Let (u0 5) (u0 4 * d 4);
    Let (u0 6) (u0 5 * d 5);
    Let (u0 7) (u0 6 * d 6);
    Let (u0 8) (u0 7 * d 7);
    Let (u0 9) (u0 8 * d 8);
    Let (u0 10) (u0 9 * d 9);
    Let (u0 11) (u0 10 * d 10);
    Let (u0 12) (u0 11 * d 11);
    Let (u0 13) (u0 12 * d 12);
    Let (u0 14) (u0 13 * d 13);
    Let (u0 15) (u0 14 * d 14);
    Let (u0 16) (u0 15 * d 15);
    Let (v0 15) (d 16 * 1);
    Let (v0 14) (d 15 * v0 15);
    Let (v0 13) (d 14 * v0 14);
    Let (v0 12) (d 13 * v0 13);
    Let (v0 11) (d 12 * v0 12);
    Let (v0 10) (d 11 * v0 11);
    Let (v0 9) (d 10 * v0 10);
    Let (v0 8) (d 9 * v0 9);
    Let (v0 7) (d 8 * v0 8);
    Let (v0 6) (d 7 * v0 7);
    Let (v0 5) (d 6 * v0 6);
    Let (v0 4) (d 5 * v0 5);
    Let (v0 3) (d 4 * v0 4);
    Let (v0 2) (d 3 * v0 3);
    Let (v0 1) (d 2 * v0 2);
    Let (v0 0) (d 1 * v0 1);
    Out 0 (W 0 * 1 * v0 0);
    Out 1 (W 1 * u0 1 * v0 1);
    Out 2 (W 2 * u0 2 * v0 2);
    Out 3 (W 3 * u0 3 * v0 3);
    Out 4 (W 4 * u0 4 * v0 4);
    Out 5 (W 5 * u0 5 * v0 5);
    Out 6 (W 6 * u0 6 * v0 6);
    Out 7 (W 7 * u0 7 * v0 7);
    Out 8 (W 8 * u0 8 * v0 8);
    Out 9 (W 9 * u0 9 * v0 9);
    Out 10 (W 10 * u0 10 * v0 10);
    Out 11 (W 11 * u0 11 * v0 11);
    Out 12 (W 12 * u0 12 * v0 12);
    Out 13 (W 13 * u0 13 * v0 13);
    Out 14 (W 14 * u0 14 * v0 14);
    Out 15 (W 15 * u0 15 * v0 15);
    Out 16 (W 16 * u0 16 * 1)];
  b1 := [
    Let (u1 2) (1 * d 1 + u0 1);
    Let (u1 3) (u1 2 * d 2 + u0 2);
    Let (u1 4) (u1 3 * d 3 + u0 3);
    Let (u1 5) (u1 4 * d 4 + u0 4);
    Let (u1 6) (u1 5 * d 5 + u0 5);
    Let (u1 7) (u1 6 * d 6 + u0 6);
    Let (u1 8) (u1 7 * d 7 + u0 7);
    Let (u1 9) (u1 8 * d 8 + u0 8);
    Let (u1 10) (u1 9 * d 9 + u0 9);
    Let (u1 11) (u1 10 * d 10 + u0 10);
    Let (u1 12) (u1 11 * d 11 + u0 11);
    Let (u1 13) (u1 12 * d 12 + u0 12);
    Let (u1 14) (u1 13 * d 13 + u0 13);
    Let (u1 15) (u1 14 * d 14 + u0 14);
    Let (u1 16) (u1 15 * d 15 + u0 15);
    Let (v1 14) (d 15 * 1 + v0 15);
    Let (v1 13) (d 14 * v1 14 + v0 14);
    Let (v1 12) (d 13 * v1 13 + v0 13);
    Let (v1 11) (d 12 * v1 12 + v0 12);
    Let (v1 10) (d 11 * v1 11 + v0 11);
    Let (v1 9) (d 10 * v1 10 + v0 10);
    Let (v1 8) (d 9 * v1 9 + v0 9);
    Let (v1 7) (d 8 * v1 8 + v0 8);
    Let (v1 6) (d 7 * v1 7 + v0 7);
    Let (v1 5) (d 6 * v1 6 + v0 6);
    Let (v1 4) (d 5 * v1 5 + v0 5);
    Let (v1 3) (d 4 * v1 4 + v0 4);
    Let (v1 2) (d 3 * v1 3 + v0 3);
    Let (v1 1) (d 2 * v1 2 + v0 2);
    Let (v1 0) (d 1 * v1 1 + v0 1);
    Out 17 (2 * W 0 * (v1 0));
    Out 18 (2 * W 1 * (1 * v0 1 + u0 1 * v1 1));
    Out 19 (2 * W 2 * (u1 2 * v0 2 + u0 2 * v1 2));
    Out 20 (2 * W 3 * (u1 3 * v0 3 + u0 3 * v1 3));
    Out 21 (2 * W 4 * (u1 4 * v0 4 + u0 4 * v1 4));
    Out 22 (2 * W 5 * (u1 5 * v0 5 + u0 5 * v1 5));
    Out 23 (2 * W 6 * (u1 6 * v0 6 + u0 6 * v1 6));
    Out 24 (2 * W 7 * (u1 7 * v0 7 + u0 7 * v1 7));
    Out 25 (2 * W 8 * (u1 8 * v0 8 + u0 8 * v1 8));
    Out 26 (2 * W 9 * (u1 9 * v0 9 + u0 9 * v1 9));
    Out 27 (2 * W 10 * (u1 10 * v0 10 + u0 10 * v1 10));
    Out 28 (2 * W 11 * (u1 11 * v0 11 + u0 11 * v1 11));
    Out 29 (2 * W 12 * (u1 12 * v0 12 + u0 12 * v1 12));
    Out 30 (2 * W 13 * (u1 13 * v0 13 + u0 13 * v1 13));
    Out 31 (2 * W 14 * (u1 14 * v0 14 + u0 14 * v1 14));
    Out 32 (2 * W 15 * (u1 15 * v0 15 + u0 15 * 1));
    Out 33 (2 * W 16 * (u1 16))];
  b2 := [
    Let (u2 3) (2 * d 2 + 2 * u1 2);
    Let (u2 4) (u2 3 * d 3 + 2 * u1 3);
    Let (u2 5) (u2 4 * d 4 + 2 * u1 4);
    Let (u2 6) (u2 5 * d 5 + 2 * u1 5);
    Let (u2 7) (u2 6 * d 6 + 2 * u1 6);
    Let (u2 8) (u2 7 * d 7 + 2 * u1 7);
    Let (u2 9) (u2 8 * d 8 + 2 * u1 8);
    Let (u2 10) (u2 9 * d 9 + 2 * u1 9);
    Let (u2 11) (u2 10 * d 10 + 2 * u1 10);
    Let (u2 12) (u2 11 * d 11 + 2 * u1 11);
    Let (u2 13) (u2 12 * d 12 + 2 * u1 12);
    Let (u2 14) (u2 13 * d 13 + 2 * u1 13);
    Let (u2 15) (u2 14 * d 14 + 2 * u1 14);
    Let (u2 16) (u2 15 * d 15 + 2 * u1 15);
    Let (v2 13) (d 14 * 2 + 2 * v1 14);
    Let (v2 12) (d 13 * v2 13 + 2 * v1 13);
    Let (v2 11) (d 12 * v2 12 + 2 * v1 12);
    Let (v2 10) (d 11 * v2 11 + 2 * v1 11);
    Let (v2 9) (d 10 * v2 10 + 2 * v1 10);
    Let (v2 8) (d 9 * v2 9 + 2 * v1 9);
    Let (v2 7) (d 8 * v2 8 + 2 * v1 8);
    Let (v2 6) (d 7 * v2 7 + 2 * v1 7);
    Let (v2 5) (d 6 * v2 6 + 2 * v1 6);
    Let (v2 4) (d 5 * v2 5 + 2 * v1 5);
    Let (v2 3) (d 4 * v2 4 + 2 * v1 4);
    Let (v2 2) (d 3 * v2 3 + 2 * v1 3);
    Let (v2 1) (d 2 * v2 2 + 2 * v1 2);
    Let (v2 0) (d 1 * v2 1 + 2 * v1 1);
    Out 34 (4 * W 0 * (1 * v2 0));
    Out 35 (4 * W 1 * (2 * 1 * v1 1 + u0 1 * v2 1));
    Out 36 (4 * W 2 * (2 * v0 2 + 2 * u1 2 * v1 2 + u0 2 * v2 2));
    Out 37 (4 * W 3 * (u2 3 * v0 3 + 2 * u1 3 * v1 3 + u0 3 * v2 3));
    Out 38 (4 * W 4 * (u2 4 * v0 4 + 2 * u1 4 * v1 4 + u0 4 * v2 4));
    Out 39 (4 * W 5 * (u2 5 * v0 5 + 2 * u1 5 * v1 5 + u0 5 * v2 5));
    Out 40 (4 * W 6 * (u2 6 * v0 6 + 2 * u1 6 * v1 6 + u0 6 * v2 6));
    Out 41 (4 * W 7 * (u2 7 * v0 7 + 2 * u1 7 * v1 7 + u0 7 * v2 7));
    Out 42 (4 * W 8 * (u2 8 * v0 8 + 2 * u1 8 * v1 8 + u0 8 * v2 8));
    Out 43 (4 * W 9 * (u2 9 * v0 9 + 2 * u1 9 * v1 9 + u0 9 * v2 9));
    Out 44 (4 * W 10 * (u2 10 * v0 10 + 2 * u1 10 * v1 10 + u0 10 * v2 10));
    Out 45 (4 * W 11 * (u2 11 * v0 11 + 2 * u1 11 * v1 11 + u0 11 * v2 11));
    Out 46 (4 * W 12 * (u2 12 * v0 12 + 2 * u1 12 * v1 12 + u0 12 * v2 12));
    Out 47 (4 * W 13 * (u2 13 * v0 13 + 2 * u1 13 * v1 13 + u0 13 * v2 13));
    Out 48 (4 * W 14 * (u2 14 * v0 14 + 2 * u1 14 * v1 14 + u0 14 * 2));
    Out 49 (4 * W 15 * (u2 15 * v0 15 + 2 * u1 15 * 1));
    Out 50 (4 * W 16 * (u2 16 * 1))] |}.

(** gll_lag_18 (poly_imp.h:1032-1132). *)
Definition gll_lag_18 : prog := {|
  nodes := gllz_18;
  b0 := [
    Let (d 0) (X + 2);
    Let (d 1) (X + 2 * G 0);
    Let (d 2) (X + 2 * G 1);
    Let (d 3) (X + 2 * G 2);
    Let (d 4) (X + 2 * G 3);
    Let (d 5) (X + 2 * G 4);
    Let (d 6) (X + 2 * G 5);
    Let (d 7) (X + 2 * G 6);
    Let (d 8) (X + 2 * G 7);
    Let (d 9) (X - 2 * G 7);
    Let (d 10) (X - 2 * G 6);
    Let (d 11) (X - 2 * G 5);
    Let (d 12) (X - 2 * G 4);
    Let (d 13) (X - 2 * G 3);
    Let (d 14) (X - 2 * G 2);
    Let (d 15) (X - 2 * G 1);
    Let (d 16) (X - 2 * G 0);
    Let (d 17) (X - 2);
    Let (u0 1) (1 * d 0);
    Let (u0 2) (u0 1 * d 1);
    Let (u0 3) (u0 2 * d 2);
    Let (u0 4) (u0 3 * d 3);
    Let (u0 5) (u0 4 * d 4);
    Let (u0 6) (u0 5 * d 5);
    Let (u0 7) (u0 6 * d 6);
    Let (u0 8) (u0 7 * d 7);
    Let (u0 9) (u0 8 * d 8);
    Let (u0 10) (u0 9 * d 9);
    Let (u0 11) (u0 10 * d 10);
    Let (u0 12) (u0 11 * d 11);
    Let (u0 13) (u0 12 * d 12);
    Let (u0 14) (u0 13 * d 13);
    Let (u0 15) (u0 14 * d 14);
    Let (u0 16) (u0 15 * d 15);
    Let (u0 17) (u0 16 * d 16);
    Let (v0 16) (d 17 * 1);
    Let (v0 15) (d 16 * v0 16);
    Let (v0 14) (d 15 * v0 15);
    Let (v0 13) (d 14 * v0 14);
    Let (v0 12) (d 13 * v0 13);
    Let (v0 11) (d 12 * v0 12);
    Let (v0 10) (d 11 * v0 11);
    Let (v0 9) (d 10 * v0 10);
    Let (v0 8) (d 9 * v0 9);
    Let (v0 7) (d 8 * v0 8);
    Let (v0 6) (d 7 * v0 7);
    Let (v0 5) (d 6 * v0 6);
    Let (v0 4) (d 5 * v0 5);
    Let (v0 3) (d 4 * v0 4);
    Let (v0 2) (d 3 * v0 3);
    Let (v0 1) (d 2 * v0 2);
    Let (v0 0) (d 1 * v0 1);
    Out 0 (W 0 * 1 * v0 0);
    Out 1 (W 1 * u0 1 * v0 1);
    Out 2 (W 2 * u0 2 * v0 2);
    Out 3 (W 3 * u0 3 * v0 3);
    Out 4 (W 4 * u0 4 * v0 4);
    Out 5 (W 5 * u0 5 * v0 5);
    Out 6 (W 6 * u0 6 * v0 6);
    Out 7 (W 7 * u0 7 * v0 7);
    Out 8 (W 8 * u0 8 * v0 8);
    Out 9 (W 9 * u0 9 * v0 9);
    Out 10 (W 10 * u0 10 * v0 10);
    Out 11 (W 11 * u0 11 * v0 11);
    Out 12 (W 12 * u0 12 * v0 12);
    Out 13 (W 13 * u0 13 * v0 13);
    Out 14 (W 14 * u0 14 * v0 14);
    Out 15 (W 15 * u0 15 * v0 15);
    Out 16 (W 16 * u0 16 * v0 16);
    Out 17 (W 17 * u0 17 * 1)];
  b1 := [
    Let (u1 2) (1 * d 1 + u0 1);
    Let (u1 3) (u1 2 * d 2 + u0 2);
    Let (u1 4) (u1 3 * d 3 + u0 3);
    Let (u1 5) (u1 4 * d 4 + u0 4);
    Let (u1 6) (u1 5 * d 5 + u0 5);
    Let (u1 7) (u1 6 * d 6 + u0 6);
    Let (u1 8) (u1 7 * d 7 + u0 7);
    Let (u1 9) (u1 8 * d 8 + u0 8);
    Let (u1 10) (u1 9 * d 9 + u0 9);
    Let (u1 11) (u1 10 * d 10 + u0 10);
    Let (u1 12) (u1 11 * d 11 + u0 11);
    Let (u1 13) (u1 12 * d 12 + u0 12);
    Let (u1 14) (u1 13 * d 13 + u0 13);
    Let (u1 15) (u1 14 * d 14 + u0 14);
    Let (u1 16) (u1 15 * d 15 + u0 15);
    Let (u1 17) (u1 16 * d 16 + u0 16);
    Let (v1 15) (d 16 * 1 + v0 16);
    Let (v1 14) (d 15 * v1 15 + v0 15);
    Let (v1 13) (d 14 * v1 14 + v0 14);
    Let (v1 12) (d 13 * v1 13 + v0 13);
    Let (v1 11) (d 12 * v1 12 + v0 12);
    Let (v1 10) (d 11 * v1 11 + v0 11);
    Let (v1 9) (d 10 * v1 10 + v0 10);
    Let (v1 8) (d 9 * v1 9 + v0 9);
    Let (v1 7) (d 8 * v1 8 + v0 8);
    Let (v1 6) (d 7 * v1 7 + v0 7);
    Let (v1 5) (d 6 * v1 6 + v0 6);
    Let (v1 4) (d 5 * v1 5 + v0 5);
    Let (v1 3) (d 4 * v1 4 + v0 4);
    Let (v1 2) (d 3 * v1 3 + v0 3);
    Let (v1 1) (d 2 * v1 2 + v0 2);
    Let (v1 0) (d 1 * v1 1 + v0 1);
    Out 18 (2 * W 0 * (v1 0));
    Out 19 (2 * W 1 * (1 * v0 1 + u0 1 * v1 1));
    Out 20 (2 * W 2 * (u1 2 * v0 2 + u0 2 * v1 2));
    Out 21 (2 * W 3 * (u1 3 * v0 3 + u0 3 * v1 3));
    Out 22 (2 * W 4 * (u1 4 * v0 4 + u0 4 * v1 4));
    Out 23 (2 * W 5 * (u1 5 * v0 5 + u0 5 * v1 5));
    Out 24 (2 * W 6 * (u1 6 * v0 6 + u0 6 * v1 6));
    Out 25 (2 * W 7 * (u1 7 * v0 7 + u0 7 * v1 7));
    Out 26 (2 * W 8 * (u1 8 * v0 8 + u0 8 * v1 8));
    Out 27 (2 * W 9 * (u1 9 * v0 9 + u0 9 * v1 9));
    Out 28 (2 * W 10 * (u1 10 * v0 10 + u0 10 * v1 10));
    Out 29 (2 * W 11 * (u1 11 * v0 11 + u0 11 * v1 11));
    Out 30 (2 * W 12 * (u1 12 * v0 12 + u0 12 * v1 12));
    Out 31 (2 * W 13 * (u1 13 * v0 13 + u0 13 * v1 13));
    Out 32 (2 * W 14 * (u1 14 * v0 14 + u0 14 * v1 14));
    Out 33 (2 * W 15 * (u1 15 * v0 15 + u0 15 * v1 15));
    Out 34 (2 * W 16 * (u1 16 * v0 16 + u0 16 * 1));
    Out 35 (2 * W 17 * (u1 17))];
  b2 := [
    Let (u2 3) (2 * d 2 + 2 * u1 2);
    Let (u2 4) (u2 3 * d 3 + 2 * u1 3);
    Let (u2 5) (u2 4 * d 4 + 2 * u1 4);
    Let (u2 6) (u2 5 * d 5 + 2 * u1 5);
    Let (u2 7) (u2 6 * d 6 + 2 * u1 6);
    Let (u2 8) (u2 7 * d 7 + 2 * u1 7);
    Let (u2 9) (u2 8 * d 8 + 2 * u1 8);
    Let (u2 10) (u2 9 * d 9 + 2 * u1 9);
    Let (u2 11) (u2 10 * d 10 + 2 * u1 10);
    Let (u2 12) (u2 11 * d 11 + 2 * u1 11);
    Let (u2 13) (u2 12 * d 12 + 2 * u1 12);
    Let (u2 14) (u2 13 * d 13 + 2 * u1 13);
    Let (u2 15) (u2 14 * d 14 + 2 * u1 14);
    Let (u2 16) (u2 15 * d 15 + 2 * u1 15);
    Let (u2 17) (u2 16 * d 16 + 2 * u1 16);
    Let (v2 14) (d 15 * 2 + 2 * v1 15);
    Let (v2 13) (d 14 * v2 14 + 2 * v1 14);
    Let (v2 12) (d 13 * v2 13 + 2 * v1 13);
    Let (v2 11) (d 12 * v2 12 + 2 * v1 12);
    Let (v2 10) (d 11 * v2 11 + 2 * v1 11);
    Let (v2 9) (d 10 * v2 10 + 2 * v1 10);
    Let (v2 8) (d 9 * v2 9 + 2 * v1 9);
    Let (v2 7) (d 8 * v2 8 + 2 * v1 8);
    Let (v2 6) (d 7 * v2 7 + 2 * v1 7);
    Let (v2 5) (d 6 * v2 6 + 2 * v1 6);
    Let (v2 4) (d 5 * v2 5 + 2 * v1 5);
    Let (v2 3) (d 4 * v2 4 + 2 * v1 4);
    Let (v2 2) (d 3 * v2 3 + 2 * v1 3);
    Let (v2 1) (d 2 * v2 2 + 2 * v1 2);
    Let (v2 0) (d 1 * v2 1 + 2 * v1 1);
    Out 36 (4 * W 0 * (1 * v2 0));
    Out 37 (4 * W 1 * (2 * 1 * v1 1 + u0 1 * v2 1));
    Out 38 (4 * W 2 * (2 * v0 2 + 2 * u1 2 * v1 2 + u0 2 * v2 2));
    Out 39 (4 * W 3 * (u2 3 * v0 3 + 2 * u1 3 * v1 3 + u0 3 * v2 3));
    Out 40 (4 * W 4 * (u2 4 * v0 4 + 2 * u1 4 * v1 4 + u0 4 * v2 4));
    Out 41 (4 * W 5 * (u2 5 * v0 5 + 2 * u1 5 * v1 5 + u0 5 * v2 5));
    Out 42 (4 * W 6 * (u2 6 * v0 6 + 2 * u1 6 * v1 6 + u0 6 * v2 6));
    Out 43 (4 * W 7 * (u2 7 * v0 7 + 2 * u1 7 * v1 7 + u0 7 * v2 7));
    Out 44 (4 * W 8 * (u2 8 * v0 8 + 2 * u1 8 * v1 8 + u0 8 * v2 8));
    Out 45 (4 * W 9 * (u2 9 * v0 9 + 2 * u1 9 * v1 9 + u0 9 * v2 9));
    Out 46 (4 * W 10 * (u2 10 * v0 10 + 2 * u1 10 * v1 10 + u0 10 * v2 10));
    Out 47 (4 * W 11 * (u2 11 * v0 11 + 2 * u1 11 * v1 11 + u0 11 * v2 11));
    Out 48 (4 * W 12 * (u2 12 * v0 12 + 2 * u1 12 * v1 12 + u0 12 * v2 12));
    Out 49 (4 * W 13 * (u2 13 * v0 13 + 2 * u1 13 * v1 13 + u0 13 * v2 13));
    Out 50 (4 * W 14 * (u2 14 * v0 14 + 2 * u1 14 * v1 14 + u0 14 * v2 14));
    Out 51 (4 * W 15 * (u2 15 * v0 15 + 2 * u1 15 * v1 15 + u0 15 * 2));
    Out 52 (4 * W 16 * (u2 16 * v0 16 + 2 * u1 16 * 1));
    Out 53 (4 * W 17 * (u2 17 * 1))] |}.

(** gll_lag_19 (poly_imp.h:1145-1251). *)
Definition gll_lag_19 : prog := {|
  nodes := gllz_19;
  b0 := [
    Let (d 0) (X + 2);
    Let (d 1) (X + 2 * G 0);
    Let (d 2) (X + 2 * G 1);
    Let (d 3) (X + 2 * G 2);
    Let (d 4) (X + 2 * G 3);
    Let (d 5) (X + 2 * G 4);
    Let (d 6) (X + 2 * G 5);
    Let (d 7) (X + 2 * G 6);
    Let (d 8) (X + 2 * G 7);
    Let (d 9) (X);
    Let (d 10) (X - 2 * G 7);
    Let (d 11) (X - 2 * G 6);
    Let (d 12) (X - 2 * G 5);
    Let (d 13) (X - 2 * G 4);
    Let (d 14) (X - 2 * G 3);
    Let (d 15) (X - 2 * G 2);
    Let (d 16) (X - 2 * G 1);
    Let (d 17) (X - 2 * G 0);
    Let (d 18) (X - 2);
    Let (u0 1) (1 * d 0);
    Let (u0 2) (u0 1 * d 1);
    Let (u0 3) (u0 2 * d 2);
    Let (u0 4) (u0 3 * d 3);
    Let (u0 5) (u0 4 * d 4);
    Let (u0 6) (u0 5 * d 5);
    Let (u0 7) (u0 6 * d 6);
    Let (u0 8) (u0 7 * d 7);
    Let (u0 9) (u0 8 * d 8);
    Let (u0 10) (u0 9 * d 9);
    Let (u0 11) (u0 10 * d 10);
    Let (u0 12) (u0 11 * d 11);
    Let (u0 13) (u0 12 * d 12);
    Let (u0 14) (u0 13 * d 13);
    Let (u0 15) (u0 14 * d 14);
    Let (u0 16) (u0 15 * d 15);
    Let (u0 17) (u0 16 * d 16);
    Let (u0 18) (u0 17 * d 17);
    Let (v0 17) (d 18 * 1);
    Let (v0 16) (d 17 * v0 17);
    Let (v0 15) (d 16 * v0 16);
    Let (v0 14) (d 15 * v0 15);
    Let (v0 13) (d 14 * v0 14);
    Let (v0 12) (d 13 * v0 13);
    Let (v0 11) (d 12 * v0 12);
    Let (v0 10) (d 11 * v0 11);
    Let (v0 9) (d 10 * v0 10);
    Let (v0 8) (d 9 * v0 9);
    Let (v0 7) (d 8 * v0 8);
    Let (v0 6) (d 7 * v0 7);
    Let (v0 5) (d 6 * v0 6);
    Let (v0 4) (d 5 * v0 5);
    Let (v0 3) (d 4 * v0 4);
    Let (v0 2) (d 3 * v0 3);
    Let (v0 1) (d 2 * v0 2);
    Let (v0 0) (d 1 * v0 1);
    Out 0 (W 0 * 1 * v0 0);
    Out 1 (W 1 * u0 1 * v0 1);
    Out 2 (W 2 * u0 2 * v0 2);
    Out 3 (W 3 * u0 3 * v0 3);
    Out 4 (W 4 * u0 4 * v0 4);
    Out 5 (W 5 * u0 5 * v0 5);
    Out 6 (W 6 * u0 6 * v0 6);
    Out 7 (W 7 * u0 7 * v0 7);
    Out 8 (W 8 * u0 8 * v0 8);
    Out 9 (W 9 * u0 9 * v0 9);
    Out 10 (W 10 * u0 10 * v0 10);
    Out 11 (W 11 * u0 11 * v0 11);
    Out 12 (W 12 * u0 12 * v0 12);
    Out 13 (W 13 * u0 13 * v0 13);
    Out 14 (W 14 * u0 14 * v0 14);
    Out 15 (W 15 * u0 15 * v0 15);
    Out 16 (W 16 * u0 16 * v0 16);
    Out 17 (W 17 * u0 17 * v0 17);
    Out 18 (W 18 * u0 18 * 1)];
  b1 := [
    Let (u1 2) (1 * d 1 + u0 1);
    Let (u1 3) (u1 2 * d 2 + u0 2);
    Let (u1 4) (u1 3 * d 3 + u0 3);
    Let (u1 5) (u1 4 * d 4 + u0 4);
    Let (u1 6) (u1 5 * d 5 + u0 5);
    Let (u1 7) (u1 6 * d 6 + u0 6);
    Let (u1 8) (u1 7 * d 7 + u0 7);
    Let (u1 9) (u1 8 * d 8 + u0 8);
    Let (u1 10) (u1 9 * d 9 + u0 9);
    Let (u1 11) (u1 10 * d 10 + u0 10);
    Let (u1 12) (u1 11 * d 11 + u0 11);
    Let (u1 13) (u1 12 * d 12 + u0 12);
    Let (u1 14) (u1 13 * d 13 + u0 13);
    Let (u1 15) (u1 14 * d 14 + u0 14);
    Let (u1 16) (u1 15 * d 15 + u0 15);
    Let (u1 17) (u1 16 * d 16 + u0 16);
    Let (u1 18) (u1 17 * d 17 + u0 17);
    Let (v1 16) (d 17 * 1 + v0 17);
    Let (v1 15) (d 16 * v1 16 + v0 16);
    Let (v1 14) (d 15 * v1 15 + v0 15);
    Let (v1 13) (d 14 * v1 14 + v0 14);
    Let (v1 12) (d 13 * v1 13 + v0 13);
    Let (v1 11) (d 12 * v1 12 + v0 12);
    Let (v1 10) (d 11 * v1 11 + v0 11);
    Let (v1 9) (d 10 * v1 10 + v0 10);
    Let (v1 8) (d 9 * v1 9 + v0 9);
    Let (v1 7) (d 8 * v1 8 + v0 8);
    Let (v1 6) (d 7 * v1 7 + v0 7);
    Let (v1 5) (d 6 * v1 6 + v0 6);
    Let (v1 4) (d 5 * v1 5 + v0 5);
    Let (v1 3) (d 4 * v1 4 + v0 4);
    Let (v1 2) (d 3 * v1 3 + v0 3);
    Let (v1 1) (d 2 * v1 2 + v0 2);
    Let (v1 0) (d 1 * v1 1 + v0 1);
    Out 19 (2 * W 0 * (v1 0));
    Out 20 (2 * W 1 * (1 * v0 1 + u0 1 * v1 1));
    Out 21 (2 * W 2 * (u1 2 * v0 2 + u0 2 * v1 2));
    Out 22 (2 * W 3 * (u1 3 * v0 3 + u0 3 * v1 3));
    Out 23 (2 * W 4 * (u1 4 * v0 4 + u0 4 * v1 4));
    Out 24 (2 * W 5 * (u1 5 * v0 5 + u0 5 * v1 5));
    Out 25 (2 * W 6 * (u1 6 * v0 6 + u0 6 * v1 6));
    Out 26 (2 * W 7 * (u1 7 * v0 7 + u0 7 * v1 7));
    Out 27 (2 * W 8 * (u1 8 * v0 8 + u0 8 * v1 8));
    Out 28 (2 * W 9 * (u1 9 * v0 9 + u0 9 * v1 9));
    Out 29 (2 * W 10 * (u1 10 * v0 10 + u0 10 * v1 10));
    Out 30 (2 * W 11 * (u1 11 * v0 11 + u0 11 * v1 11));
    Out 31 (2 * W 12 * (u1 12 * v0 12 + u0 12 * v1 12));
    Out 32 (2 * W 13 * (u1 13 * v0 13 + u0 13 * v1 13));
    Out 33 (2 * W 14 * (u1 14 * v0 14 + u0 14 * v1 14));
    Out 34 (2 * W 15 * (u1 15 * v0 15 + u0 15 * v1 15));
    Out 35 (2 * W 16 * (u1 16 * v0 16 + u0 16 * v1 16));
    Out 36 (2 * W 17 * (u1 17 * v0 17 + u0 17 * 1));
    Out 37 (2 * W 18 * (u1 18))];
  b2 := [
    Let (u2 3) (2 * d 2 + 2 * u1 2);
    Let (u2 4) (u2 3 * d 3 + 2 * u1 3);
    Let (u2 5) (u2 4 * d 4 + 2 * u1 4);
    Let (u2 6) (u2 5 * d 5 + 2 * u1 5);
    Let (u2 7) (u2 6 * d 6 + 2 * u1 6);
    Let (u2 8) (u2 7 * d 7 + 2 * u1 7);
    Let (u2 9) (u2 8 * d 8 + 2 * u1 8);
    Let (u2 10) (u2 9 * d 9 + 2 * u1 9);
    Let (u2 11) (u2 10 * d 10 + 2 * u1 10);
    Let (u2 12) (u2 11 * d 11 + 2 * u1 11);
    Let (u2 13) (u2 12 * d 12 + 2 * u1 12);
    Let (u2 14) (u2 13 * d 13 + 2 * u1 13);
    Let (u2 15) (u2 14 * d 14 + 2 * u1 14);
    Let (u2 16) (u2 15 * d 15 + 2 * u1 15);
    Let (u2 17) (u2 16 * d 16 + 2 * u1 16);
    Let (u2 18) (u2 17 * d 17 + 2 * u1 17);
    Let (v2 15) (d 16 * 2 + 2 * v1 16);
    Let (v2 14) (d 15 * v2 15 + 2 * v1 15);
    Let (v2 13) (d 14 * v2 14 + 2 * v1 14);
    Let (v2 12) (d 13 * v2 13 + 2 * v1 13);
    Let (v2 11) (d 12 * v2 12 + 2 * v1 12);
    Let (v2 10) (d 11 * v2 11 + 2 * v1 11);
    Let (v2 9) (d 10 * v2 10 + 2 * v1 10);
    Let (v2 8) (d 9 * v2 9 + 2 * v1 9);
    Let (v2 7) (d 8 * v2 8 + 2 * v1 8);
    Let (v2 6) (d 7 * v2 7 + 2 * v1 7);
    Let (v2 5) (d 6 * v2 6 + 2 * v1 6);
    Let (v2 4) (d 5 * v2 5 + 2 * v1 5);
    Let (v2 3) (d 4 * v2 4 + 2 * v1 4);
    Let (v2 2) (d 3 * v2 3 + 2 * v1 3);
    Let (v2 1) (d 2 * v2 2 + 2 * v1 2);
    Let (v2 0) (d 1 * v2 1 + 2 * v1 1);
    Out 38 (4 * W 0 * (1 * v2 0));
    Out 39 (4 * W 1 * (2 * 1 * v1 1 + u0 1 * v2 1));
    Out 40 (4 * W 2 * (2 * v0 2 + 2 * u1 2 * v1 2 + u0 2 * v2 2));
    Out 41 (4 * W 3 * (u2 3 * v0 3 + 2 * u1 3 * v1 3 + u0 3 * v2 3));
    Out 42 (4 * W 4 * (u2 4 * v0 4 + 2 * u1 4 * v1 4 + u0 4 * v2 4));
    Out 43 (4 * W 5 * (u2 5 * v0 5 + 2 * u1 5 * v1 5 + u0 5 * v2 5));
    Out 44 (4 * W 6 * (u2 6 * v0 6 + 2 * u1 6 * v1 6 + u0 6 * v2 6));
    Out 45 (4 * W 7 * (u2 7 * v0 7 + 2 * u1 7 * v1 7 + u0 7 * v2 7));
    Out 46 (4 * W 8 * (u2 8 * v0 8 + 2 * u1 8 * v1 8 + u0 8 * v2 8));
    Out 47 (4 * W 9 * (u2 9 * v0 9 + 2 * u1 9 * v1 9 + u0 9 * v2 9));
    Out 48 (4 * W 10 * (u2 10 * v0 10 + 2 * u1 10 * v1 10 + u0 10 * v2 10));
    Out 49 (4 * W 11 * (u2 11 * v0 11 + 2 * u1 11 * v1 11 + u0 11 * v2 11));
    Out 50 (4 * W 12 * (u2 12 * v0 12 + 2 * u1 12 * v1 12 + u0 12 * v2 12));
    Out 51 (4 * W 13 * (u2 13 * v0 13 + 2 * u1 13 * v1 13 + u0 13 * v2 13));
    Out 52 (4 * W 14 * (u2 14 * v0 14 + 2 * u1 14 * v1 14 + u0 14 * v2 14));
    Out 53 (4 * W 15 * (u2 15 * v0 15 + 2 * u1 15 * v1 15 + u0 15 * v2 15));
    Out 54 (4 * W 16 * (u2 16 * v0 16 + 2 * u1 16 * v1 16 + u0 16 * 2));
    Out 55 (4 * W 17 * (u2 17 * v0 17 + 2 * u1 17 * 1));
    Out 56 (4 * W 18 * (u2 18 * 1))] |}.

(** gll_lag_20 (poly_imp.h:1265-1377). *)
Definition gll_lag_20 : prog := {|
  nodes := gllz_20;
  b0 := [
    Let (d 0) (X + 2);
    Let (d 1) (X + 2 * G 0);
    Let (d 2) (X + 2 * G 1);
    Let (d 3) (X + 2 * G 2);
    Let (d 4) (X + 2 * G 3);
    Let (d 5) (X + 2 * G 4);
    Let (d 6) (X + 2 * G 5);
    Let (d 7) (X + 2 * G 6);
    Let (d 8) (X + 2 * G 7);
    Let (d 9) (X + 2 * G 8);
    Let (d 10) (X - 2 * G 8);
    Let (d 11) (X - 2 * G 7);
    Let (d 12) (X - 2 * G 6);
    Let (d 13) (X - 2 * G 5);
    Let (d 14) (X - 2 * G 4);
    Let (d 15) (X - 2 * G 3);
    Let (d 16) (X - 2 * G 2);
    Let (d 17) (X - 2 * G 1);
    Let (d 18) (X - 2 * G 0);
    Let (d 19) (X - 2);
    Let (u0 1) (1 * d 0);
    Let (u0 2) (u0 1 * d 1);
    Let (u0 3) (u0 2 * d 2);
    Let (u0 4) (u0 3 * d 3);
    Let (u0 5) (u0 4 * d 4);
    Let (u0 6) (u0 5 * d 5);
    Let (u0 7) (u0 6 * d 6);
    Let (u0 8) (u0 7 * d 7);
    Let (u0 9) (u0 8 * d 8);
    Let (u0 10) (u0 9 * d 9);
    Let (u0 11) (u0 10 * d 10);
    Let (u0 12) (u0 11 * d 11);
    Let (u0 13) (u0 12 * d 12);
    Let (u0 14) (u0 13 * d 13);
    Let (u0 15) (u0 14 * d 14);
    Let (u0 16) (u0 15 * d 15);
    Let (u0 17) (u0 16 * d 16);
    Let (u0 18) (u0 17 * d 17);
    Let (u0 19) (u0 18 * d 18);
    Let (v0 18) (d 19 * 1);
    Let (v0 17) (d 18 * v0 18);
    Let (v0 16) (d 17 * v0 17);
    Let (v0 15) (d 16 * v0 16);
    Let (v0 14) (d 15 * v0 15);
    Let (v0 13) (d 14 * v0 14);
    Let (v0 12) (d 13 * v0 13);
    Let (v0 11) (d 12 * v0 12);
    Let (v0 10) (d 11 * v0 11);
    Let (v0 9) (d 10 * v0 10);
    Let (v0 8) (d 9 * v0 9);
    Let (v0 7) (d 8 * v0 8);
    Let (v0 6) (d 7 * v0 7);
    Let (v0 5) (d 6 * v0 6);
    Let (v0 4) (d 5 * v0 5);
    Let (v0 3) (d 4 * v0 4);
    Let (v0 2) (d 3 * v0 3);
    Let (v0 1) (d 2 * v0 2);
    Let (v0 0) (d 1 * v0 1);
    Out 0 (W 0 * 1 * v0 0);
    Out 1 (W 1 * u0 1 * v0 1);
    Out 2 (W 2 * u0 2 * v0 2);
    Out 3 (W 3 * u0 3 * v0 3);
    Out 4 (W 4 * u0 4 * v0 4);
    Out 5 (W 5 * u0 5 * v0 5);
    Out 6 (W 6 * u0 6 * v0 6);
    Out 7 (W 7 * u0 7 * v0 7);
    Out 8 (W 8 * u0 8 * v0 8);
    Out 9 (W 9 * u0 9 * v0 9);
    Out 10 (W 10 * u0 10 * v0 10);
    Out 11 (W 11 * u0 11 * v0 11);
    Out 12 (W 12 * u0 12 * v0 12);
    Out 13 (W 13 * u0 13 * v0 13);
    Out 14 (W 14 * u0 14 * v0 14);
    Out 15 (W 15 * u0 15 * v0 15);
    Out 16 (W 16 * u0 16 * v0 16);
    Out 17 (W 17 * u0 17 * v0 17);
    Out 18 (W 18 * u0 18 * v0 18);
    Out 19 (W 19 * u0 19 * 1)];
  b1 := [
    Let (u1 2) (1 * d 1 + u0 1);
    Let (u1 3) (u1 2 * d 2 + u0 2);
    Let (u1 4) (u1 3 * d 3 + u0 3);
    Let (u1 5) (u1 4 * d 4 + u0 4);
    Let (u1 6) (u1 5 * d 5 + u0 5);
    Let (u1 7) (u1 6 * d 6 + u0 6);
    Let (u1 8) (u1 7 * d 7 + u0 7);
    Let (u1 9) (u1 8 * d 8 + u0 8);
    Let (u1 10) (u1 9 * d 9 + u0 9);
    Let (u1 11) (u1 10 * d 10 + u0 10);
    Let (u1 12) (u1 11 * d 11 + u0 11);
    Let (u1 13) (u1 12 * d 12 + u0 12);
    Let (u1 14) (u1 13 * d 13 + u0 13);
    Let (u1 15) (u1 14 * d 14 + u0 14);
    Let (u1 16) (u1 15 * d 15 + u0 15);
    Let (u1 17) (u1 16 * d 16 + u0 16);
    Let (u1 18) (u1 17 * d 17 + u0 17);
    Let (u1 19) (u1 18 * d 18 + u0 18);
    Let (v1 17) (d 18 * 1 + v0 18);
    Let (v1 16) (d 17 * v1 17 + v0 17);
    Let (v1 15) (d 16 * v1 16 + v0 16);
    Let (v1 14) (d 15 * v1 15 + v0 15);
    Let (v1 13) (d 14 * v1 14 + v0 14);
    Let (v1 12) (d 13 * v1 13 + v0 13);
    Let (v1 11) (d 12 * v1 12 + v0 12);
    Let (v1 10) (d 11 * v1 11 + v0 11);
    Let (v1 9) (d 10 * v1 10 + v0 10);
    Let (v1 8) (d 9 * v1 9 + v0 9);
    Let (v1 7) (d 8 * v1 8 + v0 8);
    Let (v1 6) (d 7 * v1 7 + v0 7);
    Let (v1 5) (d 6 * v1 6 + v0 6);
    Let (v1 4) (d 5 * v1 5 + v0 5);
    Let (v1 3) (d 4 * v1 4 + v0 4);
    Let (v1 2) (d 3 * v1 3 + v0 3);
    Let (v1 1) (d 2 * v1 2 + v0 2);
    Let (v1 0) (d 1 * v1 1 + v0 1);
    Out 20 (2 * W 0 * (v1 0));
    Out 21 (2 * W 1 * (1 * v0 1 + u0 1 * v1 1));
    Out 22 (2 * W 2 * (u1 2 * v0 2 + u0 2 * v1 2));
    Out 23 (2 * W 3 * (u1 3 * v0 3 + u0 3 * v1 3));
    Out 24 (2 * W 4 * (u1 4 * v0 4 + u0 4 * v1 4));
    Out 25 (2 * W 5 * (u1 5 * v0 5 + u0 5 * v1 5));
    Out 26 (2 * W 6 * (u1 6 * v0 6 + u0 6 * v1 6));
    Out 27 (2 * W 7 * (u1 7 * v0 7 + u0 7 * v1 7));
    Out 28 (2 * W 8 * (u1 8 * v0 8 + u0 8 * v1 8));
    Out 29 (2 * W 9 * (u1 9 * v0 9 + u0 9 * v1 9));
    Out 30 (2 * W 10 * (u1 10 * v0 10 + u0 10 * v1 10));
    Out 31 (2 * W 11 * (u1 11 * v0 11 + u0 11 * v1 11));
    Out 32 (2 * W 12 * (u1 12 * v0 12 + u0 12 * v1 12));
    Out 33 (2 * W 13 * (u1 13 * v0 13 + u0 13 * v1 13));
    Out 34 (2 * W 14 * (u1 14 * v0 14 + u0 14 * v1 14));
    Out 35 (2 * W 15 * (u1 15 * v0 15 + u0 15 * v1 15));
    Out 36 (2 * W 16 * (u1 16 * v0 16 + u0 16 * v1 16));
    Out 37 (2 * W 17 * (u1 17 * v0 17 + u0 17 * v1 17));
    Out 38 (2 * W 18 * (u1 18 * v0 18 + u0 18 * 1));
    Out 39 (2 * W 19 * (u1 19))];
  b2 := [
    Let (u2 3) (2 * d 2 + 2 * u1 2);
    Let (u2 4) (u2 3 * d 3 + 2 * u1 3);
    Let (u2 5) (u2 4 * d 4 + 2 * u1 4);
    Let (u2 6) (u2 5 * d 5 + 2 * u1 5);
    Let (u2 7) (u2 6 * d 6 + 2 * u1 6);
    Let (u2 8) (u2 7 * d 7 + 2 * u1 7);
    Let (u2 9) (u2 8 * d 8 + 2 * u1 8);
    Let (u2 10) (u2 9 * d 9 + 2 * u1 9);
    Let (u2 11) (u2 10 * d 10 + 2 * u1 10);
    Let (u2 12) (u2 11 * d 11 + 2 * u1 11);
    Let (u2 13) (u2 12 * d 12 + 2 * u1 12);
    Let (u2 14) (u2 13 * d 13 + 2 * u1 13);
    Let (u2 15) (u2 14 * d 14 + 2 * u1 14);
    Let (u2 16) (u2 15 * d 15 + 2 * u1 15);
    Let (u2 17) (u2 16 * d 16 + 2 * u1 16);
    Let (u2 18) (u2 17 * d 17 + 2 * u1 17);
    Let (u2 19) (u2 18 * d 18 + 2 * u1 18);
    Let (v2 16) (d 17 * 2 + 2 * v1 17);
    Let (v2 15) (d 16 * v2 16 + 2 * v1 16);
    Let (v2 14) (d 15 * v2 15 + 2 * v1 15);
    Let (v2 13) (d 14 * v2 14 + 2 * v1 14);
    Let (v2 12) (d 13 * v2 13 + 2 * v1 13);
    Let (v2 11) (d 12 * v2 12 + 2 * v1 12);
    Let (v2 10) (d 11 * v2 11 + 2 * v1 11);
    Let (v2 9) (d 10 * v2 10 + 2 * v1 10);
    Let (v2 8) (d 9 * v2 9 + 2 * v1 9);
    Let (v2 7) (d 8 * v2 8 + 2 * v1 8);
    Let (v2 6) (d 7 * v2 7 + 2 * v1 7);
    Let (v2 5) (d 6 * v2 6 + 2 * v1 6);
    Let (v2 4) (d 5 * v2 5 + 2 * v1 5);
    Let (v2 3) (d 4 * v2 4 + 2 * v1 4);
    Let (v2 2) (d 3 * v2 3 + 2 * v1 3);
    Let (v2 1) (d 2 * v2 2 + 2 * v1 2);
    Let (v2 0) (d 1 * v2 1 + 2 * v1 1);
    Out 40 (4 * W 0 * (1 * v2 0));
    Out 41 (4 * W 1 * (2 * 1 * v1 1 + u0 1 * v2 1));
    Out 42 (4 * W 2 * (2 * v0 2 + 2 * u1 2 * v1 2 + u0 2 * v2 2));
    Out 43 (4 * W 3 * (u2 3 * v0 3 + 2 * u1 3 * v1 3 + u0 3 * v2 3));
    Out 44 (4 * W 4 * (u2 4 * v0 4 + 2 * u1 4 * v1 4 + u0 4 * v2 4));
    Out 45 (4 * W 5 * (u2 5 * v0 5 + 2 * u1 5 * v1 5 + u0 5 * v2 5));
    Out 46 (4 * W 6 * (u2 6 * v0 6 + 2 * u1 6 * v1 6 + u0 6 * v2 6));
    Out 47 (4 * W 7 * (u2 7 * v0 7 + 2 * u1 7 * v1 7 + u0 7 * v2 7));
    Out 48 (4 * W 8 * (u2 8 * v0 8 + 2 * u1 8 * v1 8 + u0 8 * v2 8));
    Out 49 (4 * W 9 * (u2 9 * v0 9 + 2 * u1 9 * v1 9 + u0 9 * v2 9));
    Out 50 (4 * W 10 * (u2 10 * v0 10 + 2 * u1 10 * v1 10 + u0 10 * v2 10));
    Out 51 (4 * W 11 * (u2 11 * v0 11 + 2 * u1 11 * v1 11 + u0 11 * v2 11));
    Out 52 (4 * W 12 * (u2 12 * v0 12 + 2 * u1 12 * v1 12 + u0 12 * v2 12));
    Out 53 (4 * W 13 * (u2 13 * v0 13 + 2 * u1 13 * v1 13 + u0 13 * v2 13));
    Out 54 (4 * W 14 * (u2 14 * v0 14 + 2 * u1 14 * v1 14 + u0 14 * v2 14));
    Out 55 (4 * W 15 * (u2 15 * v0 15 + 2 * u1 15 * v1 15 + u0 15 * v2 15));
    Out 56 (4 * W 16 * (u2 16 * v0 16 + 2 * u1 16 * v1 16 + u0 16 * v2 16));
    Out 57 (4 * W 17 * (u2 17 * v0 17 + 2 * u1 17 * v1 17 + u0 17 * 2));
    Out 58 (4 * W 18 * (u2 18 * v0 18 + 2 * u1 18 * 1));
    Out 59 (4 * W 19 * (u2 19 * 1))] |}.

(** gll_lag_21 (poly_imp.h:1391-1507). *)
Definition gll_lag_21 : prog := {|
  nodes := gllz_21;
  b0 := [
    Let (d 0) (X + 2);
    Let (d 1) (X + 2 * G 0);
    Let (d 2) (X + 2 * G 1);
    Let (d 3) (X + 2 * G 2);
    Let (d 4) (X + 2 * G 3);
    Let (d 5) (X + 2 * G 4);
    Let (d 6) (X + 2 * G 5);
    Let (d 7) (X + 2 * G 6);
    Let (d 8) (X + 2 * G 7);
    Let (d 9) (X + 2 * G 8);
    Let (d 10) (X);
    Let (d 11) (X - 2 * G 8);
    Let (d 12) (X - 2 * G 7);
    Let (d 13) (X - 2 * G 6);
    Let (d 14) (X - 2 * G 5);
    Let (d 15) (X - 2 * G 4);
    Let (d 16) (X - 2 * G 3);
    Let (d 17) (X - 2 * G 2);
    Let (d 18) (X - 2 * G 1);
    Let (d 19) (X - 2 * G 0);
    Let (d 20) (X - 2);
    Let (u0 1) (1 * d 0);
    Let (u0 2) (u0 1 * d 1);
    Let (u0 3) (u0 2 * d 2);
    Let (u0 4) (u0 3 * d 3);
    Let (u0 5) (u0 4 * d 4);
    Let (u0 6) (u0 5 * d 5);
    Let (u0 7) (u0 6 * d 6);
    Let (u0 8) (u0 7 * d 7);
    Let (u0 9) (u0 8 * d 8);
    Let (u0 10) (u0 9 * d 9);
    Let (u0 11) (u0 10 * d 10);
    Let (u0 12) (u0 11 * d 11);
    Let (u0 13) (u0 12 * d 12);
    Let (u0 14) (u0 13 * d 13);
    Let (u0 15) (u0 14 * d 14);
    Let (u0 16) (u0 15 * d 15);
    Let (u0 17) (u0 16 * d 16);
    Let (u0 18) (u0 17 * d 17);
    Let (u0 19) (u0 18 * d 18);
    Let (u0 20) (u0 19 * d 19);
    Let (v0 19) (d 20 * 1);
    Let (v0 18) (d 19 * v0 19);
    Let (v0 17) (d 18 * v0 18);
    Let (v0 16) (d 17 * v0 17);
    Let (v0 15) (d 16 * v0 16);
    Let (v0 14) (d 15 * v0 15);
    Let (v0 13) (d 14 * v0 14);
    Let (v0 12) (d 13 * v0 13);
    Let (v0 11) (d 12 * v0 12);
    Let (v0 10) (d 11 * v0 11);
    Let (v0 9) (d 10 * v0 10);
    Let (v0 8) (d 9 * v0 9);
    Let (v0 7) (d 8 * v0 8);
    Let (v0 6) (d 7 * v0 7);
    Let (v0 5) (d 6 * v0 6);
    Let (v0 4) (d 5 * v0 5);
    Let (v0 3) (d 4 * v0 4);
    Let (v0 2) (d 3 * v0 3);
    Let (v0 1) (d 2 * v0 2);
    Let (v0 0) (d 1 * v0 1);
    Out 0 (W 0 * 1 * v0 0);
    Out 1 (W 1 * u0 1 * v0 1);
    Out 2 (W 2 * u0 2 * v0 2);
    Out 3 (W 3 * u0 3 * v0 3);
    Out 4 (W 4 * u0 4 * v0 4);
    Out 5 (W 5 * u0 5 * v0 5);
    Out 6 (W 6 * u0 6 * v0 6);
    Out 7 (W 7 * u0 7 * v0 7);
    Out 8 (W 8 * u0 8 * v0 8);
    Out 9 (W 9 * u0 9 * v0 9);
    Out 10 (W 10 * u0 10 * v0 10);
    Out 11 (W 11 * u0 11 * v0 11);
    Out 12 (W 12 * u0 12 * v0 12);
    Out 13 (W 13 * u0 13 * v0 13);
    Out 14 (W 14 * u0 14 * v0 14);
    Out 15 (W 15 * u0 15 * v0 15);
    Out 16 (W 16 * u0 16 * v0 16);
    Out 17 (W 17 * u0 17 * v0 17);
    Out 18 (W 18 * u0 18 * v0 18);
    Out 19 (W 19 * u0 19 * v0 19);
    Out 20 (W 20 * u0 20 * 1)];
  b1 := [
    Let (u1 2) (1 * d 1 + u0 1);
    Let (u1 3) (u1 2 * d 2 + u0 2);
    Let (u1 4) (u1 3 * d 3 + u0 3);
    Let (u1 5) (u1 4 * d 4 + u0 4);
    Let (u1 6) (u1 5 * d 5 + u0 5);
    Let (u1 7) (u1 6 * d 6 + u0 6);
    Let (u1 8) (u1 7 * d 7 + u0 7);
    Let (u1 9) (u1 8 * d 8 + u0 8);
    Let (u1 10) (u1 9 * d 9 + u0 9);
    Let (u1 11) (u1 10 * d 10 + u0 10);
    Let (u1 12) (u1 11 * d 11 + u0 11);
    Let (u1 13) (u1 12 * d 12 + u0 12);
    Let (u1 14) (u1 13 * d 13 + u0 13);
    Let (u1 15) (u1 14 * d 14 + u0 14);
    Let (u1 16) (u1 15 * d 15 + u0 15);
    Let (u1 17) (u1 16 * d 16 + u0 16);
    Let (u1 18) (u1 17 * d 17 + u0 17);
    Let (u1 19) (u1 18 * d 18 + u0 18);
    Let (u1 20) (u1 19 * d 19 + u0 19);
    Let (v1 18) (d 19 * 1 + v0 19);
    Let (v1 17) (d 18 * v1 18 + v0 18);
    Let (v1 16) (d 17 * v1 17 + v0 17);
    Let (v1 15) (d 16 * v1 16 + v0 16);
    Let (v1 14) (d 15 * v1 15 + v0 15);
    Let (v1 13) (d 14 * v1 14 + v0 14);
    Let (v1 12) (d 13 * v1 13 + v0 13);
    Let (v1 11) (d 12 * v1 12 + v0 12);
    Let (v1 10) (d 11 * v1 11 + v0 11);
    Let (v1 9) (d 10 * v1 10 + v0 10);
    Let (v1 8) (d 9 * v1 9 + v0 9);
    Let (v1 7) (d 8 * v1 8 + v0 8);
    Let (v1 6) (d 7 * v1 7 + v0 7);
    Let (v1 5) (d 6 * v1 6 + v0 6);
    Let (v1 4) (d 5 * v1 5 + v0 5);
    Let (v1 3) (d 4 * v1 4 + v0 4);
    Let (v1 2) (d 3 * v1 3 + v0 3);
    Let (v1 1) (d 2 * v1 2 + v0 2);
    Let (v1 0) (d 1 * v1 1 + v0 1);
    Out 21 (2 * W 0 * (v1 0));
    Out 22 (2 * W 1 * (1 * v0 1 + u0 1 * v1 1));
    Out 23 (2 * W 2 * (u1 2 * v0 2 + u0 2 * v1 2));
    Out 24 (2 * W 3 * (u1 3 * v0 3 + u0 3 * v1 3));
    Out 25 (2 * W 4 * (u1 4 * v0 4 + u0 4 * v1 4));
    Out 26 (2 * W 5 * (u1 5 * v0 5 + u0 5 * v1 5));
    Out 27 (2 * W 6 * (u1 6 * v0 6 + u0 6 * v1 6));
    Out 28 (2 * W 7 * (u1 7 * v0 7 + u0 7 * v1 7));
    Out 29 (2 * W 8 * (u1 8 * v0 8 + u0 8 * v1 8));
    Out 30 (2 * W 9 * (u1 9 * v0 9 + u0 9 * v1 9));
    Out 31 (2 * W 10 * (u1 10 * v0 10 + u0 10 * v1 10));
    Out 32 (2 * W 11 * (u1 11 * v0 11 + u0 11 * v1 11));
    Out 33 (2 * W 12 * (u1 12 * v0 12 + u0 12 * v1 12));
    Out 34 (2 * W 13 * (u1 13 * v0 13 + u0 13 * v1 13));
    Out 35 (2 * W 14 * (u1 14 * v0 14 + u0 14 * v1 14));
    Out 36 (2 * W 15 * (u1 15 * v0 15 + u0 15 * v1 15));
    Out 37 (2 * W 16 * (u1 16 * v0 16 + u0 16 * v1 16));
    Out 38 (2 * W 17 * (u1 17 * v0 17 + u0 17 * v1 17));
    Out 39 (2 * W 18 * (u1 18 * v0 18 + u0 18 * v1 18));
    Out 40 (2 * W 19 * (u1 19 * v0 19 + u0 19 * 1));
    Out 41 (2 * W 20 * (u1 20))];
  b2 := [
    Let (u2 3) (2 * d 2 + 2 * u1 2);
    Let (u2 4) (u2 3 * d 3 + 2 * u1 3);
    Let (u2 5) (u2 4 * d 4 + 2 * u1 4);
    Let (u2 6) (u2 5 * d 5 + 2 * u1 5);
    Let (u2 7) (u2 6 * d 6 + 2 * u1 6);
    Let (u2 8) (u2 7 * d 7 + 2 * u1 7);
    Let (u2 9) (u2 8 * d 8 + 2 * u1 8);
    Let (u2 10) (u2 9 * d 9 + 2 * u1 9);
    Let (u2 11) (u2 10 * d 10 + 2 * u1 10);
    Let (u2 12) (u2 11 * d 11 + 2 * u1 11);
    Let (u2 13) (u2 12 * d 12 + 2 * u1 12);
    Let (u2 14) (u2 13 * d 13 + 2 * u1 13);
    Let (u2 15) (u2 14 * d 14 + 2 * u1 14);
    Let (u2 16) (u2 15 * d 15 + 2 * u1 15);
    Let (u2 17) (u2 16 * d 16 + 2 * u1 16);
    Let (u2 18) (u2 17 * d 17 + 2 * u1 17);
    Let (u2 19) (u2 18 * d 18 + 2 * u1 18);
    Let (u2 20) (u2 19 * d 19 + 2 * u1 19);
    Let (v2 17) (d 18 * 2 + 2 * v1 18);
    Let (v2 16) (d 17 * v2 17 + 2 * v1 17);
    Let (v2 15) (d 16 * v2 16 + 2 * v1 16);
    Let (v2 14) (d 15 * v2 15 + 2 * v1 15);
    Let (v2 13) (d 14 * v2 14 + 2 * v1 14);
    Let (v2 12) (d 13 * v2 13 + 2 * v1 13);
    Let (v2 11) (d 12 * v2 12 + 2 * v1 12);
    Let (v2 10) (d 11 * v2 11 + 2 * v1 11);
    Let (v2 9) (d 10 * v2 10 + 2 * v1 10);
    Let (v2 8) (d 9 * v2 9 + 2 * v1 9);
    Let (v2 7) (d 8 * v2 8 + 2 * v1 8);
    Let (v2 6) (d 7 * v2 7 + 2 * v1 7);
    Let (v2 5) (d 6 * v2 6 + 2 * v1 6);
    Let (v2 4) (d 5 * v2 5 + 2 * v1 5);
    Let (v2 3) (d 4 * v2 4 + 2 * v1 4);
    Let (v2 2) (d 3 * v2 3 + 2 * v1 3);
    Let (v2 1) (d 2 * v2 2 + 2 * v1 2);
    Let (v2 0) (d 1 * v2 1 + 2 * v1 1);
    Out 42 (4 * W 0 * (1 * v2 0));
    Out 43 (4 * W 1 * (2 * 1 * v1 1 + u0 1 * v2 1));
    Out 44 (4 * W 2 * (2 * v0 2 + 2 * u1 2 * v1 2 + u0 2 * v2 2));
    Out 45 (4 * W 3 * (u2 3 * v0 3 + 2 * u1 3 * v1 3 + u0 3 * v2 3));
    Out 46 (4 * W 4 * (u2 4 * v0 4 + 2 * u1 4 * v1 4 + u0 4 * v2 4));
    Out 47 (4 * W 5 * (u2 5 * v0 5 + 2 * u1 5 * v1 5 + u0 5 * v2 5));
    Out 48 (4 * W 6 * (u2 6 * v0 6 + 2 * u1 6 * v1 6 + u0 6 * v2 6));
    Out 49 (4 * W 7 * (u2 7 * v0 7 + 2 * u1 7 * v1 7 + u0 7 * v2 7));
    Out 50 (4 * W 8 * (u2 8 * v0 8 + 2 * u1 8 * v1 8 + u0 8 * v2 8));
    Out 51 (4 * W 9 * (u2 9 * v0 9 + 2 * u1 9 * v1 9 + u0 9 * v2 9));
    Out 52 (4 * W 10 * (u2 10 * v0 10 + 2 * u1 10 * v1 10 + u0 10 * v2 10));
    Out 53 (4 * W 11 * (u2 11 * v0 11 + 2 * u1 11 * v1 11 + u0 11 * v2 11));
    Out 54 (4 * W 12 * (u2 12 * v0 12 + 2 * u1 12 * v1 12 + u0 12 * v2 12));
    Out 55 (4 * W 13 * (u2 13 * v0 13 + 2 * u1 13 * v1 13 + u0 13 * v2 13));
    Out 56 (4 * W 14 * (u2 14 * v0 14 + 2 * u1 14 * v1 14 + u0 14 * v2 14));
    Out 57 (4 * W 15 * (u2 15 * v0 15 + 2 * u1 15 * v1 15 + u0 15 * v2 15));
    Out 58 (4 * W 16 * (u2 16 * v0 16 + 2 * u1 16 * v1 16 + u0 16 * v2 16));
    Out 59 (4 * W 17 * (u2 17 * v0 17 + 2 * u1 17 * v1 17 + u0 17 * v2 17));
    Out 60 (4 * W 18 * (u2 18 * v0 18 + 2 * u1 18 * v1 18 + u0 18 * 2));
    Out 61 (4 * W 19 * (u2 19 * v0 19 + 2 * u1 19 * 1));
    Out 62 (4 * W 20 * (u2 20 * 1))] |}.

(** gll_lag_22 (poly_imp.h:1522-1644). *)
Definition gll_lag_22 : prog := {|
  nodes := gllz_22;
  b0 := [
    Let (d 0) (X + 2);
    Let (d 1) (X + 2 * G 0);
    Let (d 2) (X + 2 * G 1);
    Let (d 3) (X + 2 * G 2);
    Let (d 4) (X + 2 * G 3);
    Let (d 5) (X + 2 * G 4);
    Let (d 6) (X + 2 * G 5);
    Let (d 7) (X + 2 * G 6);
    Let (d 8) (X + 2 * G 7);
    Let (d 9) (X + 2 * G 8);
    Let (d 10) (X + 2 * G 9);
    Let (d 11) (X - 2 * G 9);
    Let (d 12) (X - 2 * G 8);
    Let (d 13) (X - 2 * G 7);
    Let (d 14) (X - 2 * G 6);
    Let (d 15) (X - 2 * G 5);
    Let (d 16) (X - 2 * G 4);
    Let (d 17) (X - 2 * G 3);
    Let (d 18) (X - 2 * G 2);
    Let (d 19) (X - 2 * G 1);
    Let (d 20) (X - 2 * G 0);
    Let (d 21) (X - 2);
    Let (u0 1) (1 * d 0);
    Let (u0 2) (u0 1 * d 1);
    Let (u0 3) (u0 2 * d 2);
    Let (u0 4) (u0 3 * d 3);
    Let (u0 5) (u0 4 * d 4);
    Let (u0 6) (u0 5 * d 5);
    Let (u0 7) (u0 6 * d 6);
    Let (u0 8) (u0 7 * d 7);
    Let (u0 9) (u0 8 * d 8);
    Let (u0 10) (u0 9 * d 9);
    Let (u0 11) (u0 10 * d 10);
    Let (u0 12) (u0 11 * d 11);
    Let (u0 13) (u0 12 * d 12);
    Let (u0 14) (u0 13 * d 13);
    Let (u0 15) (u0 14 * d 14);
    Let (u0 16) (u0 15 * d 15);
    Let (u0 17) (u0 16 * d 16);
    Let (u0 18) (u0 17 * d 17);
    Let (u0 19) (u0 18 * d 18);
    Let (u0 20) (u0 19 * d 19);
    Let (u0 21) (u0 20 * d 20);
    Let (v0 20) (d 21 * 1);
    Let (v0 19) (d 20 * v0 20);
    Let (v0 18) (d 19 * v0 19);
    Let (v0 17) (d 18 * v0 18);
    Let (v0 16) (d 17 * v0 17);
    Let (v0 15) (d 16 * v0 16);
    Let (v0 14) (d 15 * v0 15);
    Let (v0 13) (d 14 * v0 14);
    Let (v0 12) (d 13 * v0 13);
    Let (v0 11) (d 12 * v0 12);
    Let (v0 10) (d 11 * v0 11);
    Let (v0 9) (d 10 * v0 10);
    Let (v0 8) (d 9 * v0 9);
    Let (v0 7) (d 8 * v0 8);
    Let (v0 6) (d 7 * v0 7);
    Let (v0 5) (d 6 * v0 6);
    Let (v0 4) (d 5 * v0 5);
    Let (v0 3) (d 4 * v0 4);
    Let (v0 2) (d 3 * v0 3);
    Let (v0 1) (d 2 * v0 2);
    Let (v0 0) (d 1 * v0 1);
    Out 0 (W 0 * 1 * v0 0);
    Out 1 (W 1 * u0 1 * v0 1);
    Out 2 (W 2 * u0 2 * v0 2);
    Out 3 (W 3 * u0 3 * v0 3);
    Out 4 (W 4 * u0 4 * v0 4);
    Out 5 (W 5 * u0 5 * v0 5);
    Out 6 (W 6 * u0 6 * v0 6);
    Out 7 (W 7 * u0 7 * v0 7);
    Out 8 (W 8 * u0 8 * v0 8);
    Out 9 (W 9 * u0 9 * v0 9);
    Out 10 (W 10 * u0 10 * v0 10);
    Out 11 (W 11 * u0 11 * v0 11);
    Out 12 (W 12 * u0 12 * v0 12);
    Out 13 (W 13 * u0 13 * v0 13);
    Out 14 (W 14 * u0 14 * v0 14);
    Out 15 (W 15 * u0 15 * v0 15);
    Out 16 (W 16 * u0 16 * v0 16);
    Out 17 (W 17 * u0 17 * v0 17);
    Out 18 (W 18 * u0 18 * v0 18);
    Out 19 (W 19 * u0 19 * v0 19);
    Out 20 (W 20 * u0 20 * v0 20);
    Out 21 (W 21 * u0 21 * 1)];
  b1 := [
    Let (u1 2) (1 * d 1 + u0 1);
    Let (u1 3) (u1 2 * d 2 + u0 2);
    Let (u1 4) (u1 3 * d 3 + u0 3);
    Let (u1 5) (u1 4 * d 4 + u0 4);
    Let (u1 6) (u1 5 * d 5 + u0 5);
    Let (u1 7) (u1 6 * d 6 + u0 6);
    Let (u1 8) (u1 7 * d 7 + u0 7);
    Let (u1 9) (u1 8 * d 8 + u0 8);
    Let (u1 10) (u1 9 * d 9 + u0 9);
    Let (u1 11) (u1 10 * d 10 + u0 10);
    Let (u1 12) (u1 11 * d 11 + u0 11);
    Let (u1 13) (u1 12 * d 12 + u0 12);
    Let (u1 14) (u1 13 * d 13 + u0 13);
    Let (u1 15) (u1 14 * d 14 + u0 14);
    Let (u1 16) (u1 15 * d 15 + u0 15);
    Let (u1 17) (u1 16 * d 16 + u0 16);
    Let (u1 18) (u1 17 * d 17 + u0 17);
    Let (u1 19) (u1 18 * d 18 + u0 18);
    Let (u1 20) (u1 19 * d 19 + u0 19);
    Let (u1 21) (u1 20 * d 20 + u0 20);
    Let (v1 19) (d 20 * 1 + v0 20);
    Let (v1 18) (d 19 * v1 19 + v0 19);
    Let (v1 17) (d 18 * v1 18 + v0 18);
    Let (v1 16) (d 17 * v1 17 + v0 17);
    Let (v1 15) (d 16 * v1 16 + v0 16);
    Let (v1 14) (d 15 * v1 15 + v0 15);
    Let (v1 13) (d 14 * v1 14 + v0 14);
    Let (v1 12) (d 13 * v1 13 + v0 13);
    Let (v1 11) (d 12 * v1 12 + v0 12);
    Let (v1 10) (d 11 * v1 11 + v0 11);
    Let (v1 9) (d 10 * v1 10 + v0 10);
    Let (v1 8) (d 9 * v1 9 + v0 9);
    Let (v1 7) (d 8 * v1 8 + v0 8);
    Let (v1 6) (d 7 * v1 7 + v0 7);
    Let (v1 5) (d 6 * v1 6 + v0 6);
    Let (v1 4) (d 5 * v1 5 + v0 5);
    Let (v1 3) (d 4 * v1 4 + v0 4);
    Let (v1 2) (d 3 * v1 3 + v0 3);
    Let (v1 1) (d 2 * v1 2 + v0 2);
    Let (v1 0) (d 1 * v1 1 + v0 1);
    Out 22 (2 * W 0 * (v1 0));
    Out 23 (2 * W 1 * (1 * v0 1 + u0 1 * v1 1));
    Out 24 (2 * W 2 * (u1 2 * v0 2 + u0 2 * v1 2));
    Out 25 (2 * W 3 * (u1 3 * v0 3 + u0 3 * v1 3));
    Out 26 (2 * W 4 * (u1 4 * v0 4 + u0 4 * v1 4));
    Out 27 (2 * W 5 * (u1 5 * v0 5 + u0 5 * v1 5));
    Out 28 (2 * W 6 * (u1 6 * v0 6 + u0 6 * v1 6));
    Out 29 (2 * W 7 * (u1 7 * v0 7 + u0 7 * v1 7));
    Out 30 (2 * W 8 * (u1 8 * v0 8 + u0 8 * v1 8));
    Out 31 (2 * W 9 * (u1 9 * v0 9 + u0 9 * v1 9));
    Out 32 (2 * W 10 * (u1 10 * v0 10 + u0 10 * v1 10));
    Out 33 (2 * W 11 * (u1 11 * v0 11 + u0 11 * v1 11));
    Out 34 (2 * W 12 * (u1 12 * v0 12 + u0 12 * v1 12));
    Out 35 (2 * W 13 * (u1 13 * v0 13 + u0 13 * v1 13));
    Out 36 (2 * W 14 * (u1 14 * v0 14 + u0 14 * v1 14));
    Out 37 (2 * W 15 * (u1 15 * v0 15 + u0 15 * v1 15));
    Out 38 (2 * W 16 * (u1 16 * v0 16 + u0 16 * v1 16));
    Out 39 (2 * W 17 * (u1 17 * v0 17 + u0 17 * v1 17));
    Out 40 (2 * W 18 * (u1 18 * v0 18 + u0 18 * v1 18));
    Out 41 (2 * W 19 * (u1 19 * v0 19 + u0 19 * v1 19));
    Out 42 (2 * W 20 * (u1 20 * v0 20 + u0 20 * 1));
    Out 43 (2 * W 21 * (u1 21))];
  b2 := [
    Let (u2 3) (2 * d 2 + 2 * u1 2);
    Let (u2 4) (u2 3 * d 3 + 2 * u1 3);
    Let (u2 5) (u2 4 * d 4 + 2 * u1 4);
    Let (u2 6) (u2 5 * d 5 + 2 * u1 5);
    Let (u2 7) (u2 6 * d 6 + 2 * u1 6);
    Let (u2 8) (u2 7 * d 7 + 2 * u1 7);
    Let (u2 9) (u2 8 * d 8 + 2 * u1 8);
    Let (u2 10) (u2 9 * d 9 + 2 * u1 9);
    Let (u2 11) (u2 10 * d 10 + 2 * u1 10);
    Let (u2 12) (u2 11 * d 11 + 2 * u1 11);
    Let (u2 13) (u2 12 * d 12 + 2 * u1 12);
    Let (u2 14) (u2 13 * d 13 + 2 * u1 13);
    Let (u2 15) (u2 14 * d 14 + 2 * u1 14);
    Let (u2 16) (u2 15 * d 15 + 2 * u1 15);
    Let (u2 17) (u2 16 * d 16 + 2 * u1 16);
    Let (u2 18) (u2 17 * d 17 + 2 * u1 17);
    Let (u2 19) (u2 18 * d 18 + 2 * u1 18);
    Let (u2 20) (u2 19 * d 19 + 2 * u1 19);
    Let (u2 21) (u2 20 * d 20 + 2 * u1 20);
    Let (v2 18) (d 19 * 2 + 2 * v1 19);
    Let (v2 17) (d 18 * v2 18 + 2 * v1 18);
    Let (v2 16) (d 17 * v2 17 + 2 * v1 17);
    Let (v2 15) (d 16 * v2 16 + 2 * v1 16);
    Let (v2 14) (d 15 * v2 15 + 2 * v1 15);
    Let (v2 13) (d 14 * v2 14 + 2 * v1 14);
    Let (v2 12) (d 13 * v2 13 + 2 * v1 13);
    Let (v2 11) (d 12 * v2 12 + 2 * v1 12);
    Let (v2 10) (d 11 * v2 11 + 2 * v1 11);
    Let (v2 9) (d 10 * v2 10 + 2 * v1 10);
    Let (v2 8) (d 9 * v2 9 + 2 * v1 9);
    Let (v2 7) (d 8 * v2 8 + 2 * v1 8);
    Let (v2 6) (d 7 * v2 7 + 2 * v1 7);
    Let (v2 5) (d 6 * v2 6 + 2 * v1 6);
    Let (v2 4) (d 5 * v2 5 + 2 * v1 5);
    Let (v2 3) (d 4 * v2 4 + 2 * v1 4);
    Let (v2 2) (d 3 * v2 3 + 2 * v1 3);
    Let (v2 1) (d 2 * v2 2 + 2 * v1 2);
    Let (v2 0) (d 1 * v2 1 + 2 * v1 1);
    Out 44 (4 * W 0 * (1 * v2 0));
    Out 45 (4 * W 1 * (2 * 1 * v1 1 + u0 1 * v2 1));
    Out 46 (4 * W 2 * (2 * v0 2 + 2 * u1 2 * v1 2 + u0 2 * v2 2));
    Out 47 (4 * W 3 * (u2 3 * v0 3 + 2 * u1 3 * v1 3 + u0 3 * v2 3));
    Out 48 (4 * W 4 * (u2 4 * v0 4 + 2 * u1 4 * v1 4 + u0 4 * v2 4));
    Out 49 (4 * W 5 * (u2 5 * v0 5 + 2 * u1 5 * v1 5 + u0 5 * v2 5));
    Out 50 (4 * W 6 * (u2 6 * v0 6 + 2 * u1 6 * v1 6 + u0 6 * v2 6));
    Out 51 (4 * W 7 * (u2 7 * v0 7 + 2 * u1 7 * v1 7 + u0 7 * v2 7));
    Out 52 (4 * W 8 * (u2 8 * v0 8 + 2 * u1 8 * v1 8 + u0 8 * v2 8));
    Out 53 (4 * W 9 * (u2 9 * v0 9 + 2 * u1 9 * v1 9 + u0 9 * v2 9));
    Out 54 (4 * W 10 * (u2 10 * v0 10 + 2 * u1 10 * v1 10 + u0 10 * v2 10));
    Out 55 (4 * W 11 * (u2 11 * v0 11 + 2 * u1 11 * v1 11 + u0 11 * v2 11));
    Out 56 (4 * W 12 * (u2 12 * v0 12 + 2 * u1 12 * v1 12 + u0 12 * v2 12));
    Out 57 (4 * W 13 * (u2 13 * v0 13 + 2 * u1 13 * v1 13 + u0 13 * v2 13));
    Out 58 (4 * W 14 * (u2 14 * v0 14 + 2 * u1 14 * v1 14 + u0 14 * v2 14));
    Out 59 (4 * W 15 * (u2 15 * v0 15 + 2 * u1 15 * v1 15 + u0 15 * v2 15));
    Out 60 (4 * W 16 * (u2 16 * v0 16 + 2 * u1 16 * v1 16 + u0 16 * v2 16));
    Out 61 (4 * W 17 * (u2 17 * v0 17 + 2 * u1 17 * v1 17 + u0 17 * v2 17));
    Out 62 (4 * W 18 * (u2 18 * v0 18 + 2 * u1 18 * v1 18 + u0 18 * v2 18));
    Out 63 (4 * W 19 * (u2 19 * v0 19 + 2 * u1 19 * v1 19 + u0 19 * 2));
    Out 64 (4 * W 20 * (u2 20 * v0 20 + 2 * u1 20 * 1));
    Out 65 (4 * W 21 * (u2 21 * 1))] |}.

(** gll_lag_23 (poly_imp.h:1659-1787). *)
Definition gll_lag_23 : prog := {|
  nodes := gllz_23;
  b0 := [
    Let (d 0) (X + 2);
    Let (d 1) (X + 2 * G 0);
    Let (d 2) (X + 2 * G 1);
    Let (d 3) (X + 2 * G 2);
    Let (d 4) (X + 2 * G 3);
    Let (d 5) (X + 2 * G 4);
    Let (d 6) (X + 2 * G 5);
    Let (d 7) (X + 2 * G 6);
    Let (d 8) (X + 2 * G 7);
    Let (d 9) (X + 2 * G 8);
    Let (d 10) (X + 2 * G 9);
    Let (d 11) (X);
    Let (d 12) (X - 2 * G 9);
    Let (d 13) (X - 2 * G 8);
    Let (d 14) (X - 2 * G 7);
    Let (d 15) (X - 2 * G 6);
    Let (d 16) (X - 2 * G 5);
    Let (d 17) (X - 2 * G 4);
    Let (d 18) (X - 2 * G 3);
    Let (d 19) (X - 2 * G 2);
    Let (d 20) (X - 2 * G 1);
    Let (d 21) (X - 2 * G 0);
    Let (d 22) (X - 2);
    Let (u0 1) (1 * d 0);
    Let (u0 2) (u0 1 * d 1);
    Let (u0 3) (u0 2 * d 2);
    Let (u0 4) (u0 3 * d 3);
    Let (u0 5) (u0 4 * d 4);
    Let (u0 6) (u0 5 * d 5);
    Let (u0 7) (u0 6 * d 6);
    Let (u0 8) (u0 7 * d 7);
    Let (u0 9) (u0 8 * d 8);
    Let (u0 10) (u0 9 * d 9);
    Let (u0 11) (u0 10 * d 10);
    Let (u0 12) (u0 11 * d 11);
    Let (u0 13) (u0 12 * d 12);
    Let (u0 14) (u0 13 * d 13);
    Let (u0 15) (u0 14 * d 14);
    Let (u0 16) (u0 15 * d 15);
    Let (u0 17) (u0 16 * d 16);
    Let (u0 18) (u0 17 * d 17);
    Let (u0 19) (u0 18 * d 18);
    Let (u0 20) (u0 19 * d 19);
    Let (u0 21) (u0 20 * d 20);
    Let (u0 22) (u0 21 * d 21);
    Let (v0 21) (d 22 * 1);
    Let (v0 20) (d 21 * v0 21);
    Let (v0 19) (d 20 * v0 20);
    Let (v0 18) (d 19 * v0 19);
    Let (v0 17) (d 18 * v0 18);
    Let (v0 16) (d 17 * v0 17);
    Let (v0 15) (d 16 * v0 16);
    Let (v0 14) (d 15 * v0 15);
    Let (v0 13) (d 14 * v0 14);
    Let (v0 12) (d 13 * v0 13);
    Let (v0 11) (d 12 * v0 12);
    Let (v0 10) (d 11 * v0 11);
    Let (v0 9) (d 10 * v0 10);
    Let (v0 8) (d 9 * v0 9);
    Let (v0 7) (d 8 * v0 8);
    Let (v0 6) (d 7 * v0 7);
    Let (v0 5) (d 6 * v0 6);
    Let (v0 4) (d 5 * v0 5);
    Let (v0 3) (d 4 * v0 4);
    Let (v0 2) (d 3 * v0 3);
    Let (v0 1) (d 2 * v0 2);
    Let (v0 0) (d 1 * v0 1);
    Out 0 (W 0 * 1 * v0 0);
    Out 1 (W 1 * u0 1 * v0 1);
    Out 2 (W 2 * u0 2 * v0 2);
    Out 3 (W 3 * u0 3 * v0 3);
    Out 4 (W 4 * u0 4 * v0 4);
    Out 5 (W 5 * u0 5 * v0 5);
    Out 6 (W 6 * u0 6 * v0 6);
    Out 7 (W 7 * u0 7 * v0 7);
    Out 8 (W 8 * u0 8 * v0 8);
    Out 9 (W 9 * u0 9 * v0 9);
    Out 10 (W 10 * u0 10 * v0 10);
    Out 11 (W 11 * u0 11 * v0 11);
    Out 12 (W 12 * u0 12 * v0 12);
    Out 13 (W 13 * u0 13 * v0 13);
    Out 14 (W 14 * u0 14 * v0 14);
    Out 15 (W 15 * u0 15 * v0 15);
    Out 16 (W 16 * u0 16 * v0 16);
    Out 17 (W 17 * u0 17 * v0 17);
    Out 18 (W 18 * u0 18 * v0 18);
    Out 19 (W 19 * u0 19 * v0 19);
    Out 20 (W 20 * u0 20 * v0 20);
    Out 21 (W 21 * u0 21 * v0 21);
    Out 22 (W 22 * u0 22 * 1)];
  b1 := [
    Let (u1 2) (1 * d 1 + u0 1);
    Let (u1 3) (u1 2 * d 2 + u0 2);
    Let (u1 4) (u1 3 * d 3 + u0 3);
    Let (u1 5) (u1 4 * d 4 + u0 4);
    Let (u1 6) (u1 5 * d 5 + u0 5);
    Let (u1 7) (u1 6 * d 6 + u0 6);
    Let (u1 8) (u1 7 * d 7 + u0 7);
    Let (u1 9) (u1 8 * d 8 + u0 8);
    Let (u1 10) (u1 9 * d 9 + u0 9);
    Let (u1 11) (u1 10 * d 10 + u0 10);
    Let (u1 12) (u1 11 * d 11 + u0 11);
    Let (u1 13) (u1 12 * d 12 + u0 12);
    Let (u1 14) (u1 13 * d 13 + u0 13);
    Let (u1 15) (u1 14 * d 14 + u0 14);
    Let (u1 16) (u1 15 * d 15 + u0 15);
    Let (u1 17) (u1 16 * d 16 + u0 16);
    Let (u1 18) (u1 17 * d 17 + u0 17);
    Let (u1 19) (u1 18 * d 18 + u0 18);
    Let (u1 20) (u1 19 * d 19 + u0 19);
    Let (u1 21) (u1 20 * d 20 + u0 20);
    Let (u1 22) (u1 21 * d 21 + u0 21);
    Let (v1 20) (d 21 * 1 + v0 21);
    Let (v1 19) (d 20 * v1 20 + v0 20);
    Let (v1 18) (d 19 * v1 19 + v0 19);
    Let (v1 17) (d 18 * v1 18 + v0 18);
    Let (v1 16) (d 17 * v1 17 + v0 17);
    Let (v1 15) (d 16 * v1 16 + v0 16);
    Let (v1 14) (d 15 * v1 15 + v0 15);
    Let (v1 13) (d 14 * v1 14 + v0 14);
    Let (v1 12) (d 13 * v1 13 + v0 13);
    Let (v1 11) (d 12 * v1 12 + v0 12);
    Let (v1 10) (d 11 * v1 11 + v0 11);
    Let (v1 9) (d 10 * v1 10 + v0 10);
    Let (v1 8) (d 9 * v1 9 + v0 9);
    Let (v1 7) (d 8 * v1 8 + v0 8);
    Let (v1 6) (d 7 * v1 7 + v0 7);
    Let (v1 5) (d 6 * v1 6 + v0 6);
    Let (v1 4) (d 5 * v1 5 + v0 5);
    Let (v1 3) (d 4 * v1 4 + v0 4);
    Let (v1 2) (d 3 * v1 3 + v0 3);
    Let (v1 1) (d 2 * v1 2 + v0 2);
    Let (v1 0) (d 1 * v1 1 + v0 1);
    Out 23 (2 * W 0 * (v1 0));
    Out 24 (2 * W 1 * (1 * v0 1 + u0 1 * v1 1));
    Out 25 (2 * W 2 * (u1 2 * v0 2 + u0 2 * v1 2));
    Out 26 (2 * W 3 * (u1 3 * v0 3 + u0 3 * v1 3));
    Out 27 (2 * W 4 * (u1 4 * v0 4 + u0 4 * v1 4));
    Out 28 (2 * W 5 * (u1 5 * v0 5 + u0 5 * v1 5));
    Out 29 (2 * W 6 * (u1 6 * v0 6 + u0 6 * v1 6));
    Out 30 (2 * W 7 * (u1 7 * v0 7 + u0 7 * v1 7));
    Out 31 (2 * W 8 * (u1 8 * v0 8 + u0 8 * v1 8));
    Out 32 (2 * W 9 * (u1 9 * v0 9 + u0 9 * v1 9));
    Out 33 (2 * W 10 * (u1 10 * v0 10 + u0 10 * v1 10));
    Out 34 (2 * W 11 * (u1 11 * v0 11 + u0 11 * v1 11));
    Out 35 (2 * W 12 * (u1 12 * v0 12 + u0 12 * v1 12));
    Out 36 (2 * W 13 * (u1 13 * v0 13 + u0 13 * v1 13));
    Out 37 (2 * W 14 * (u1 14 * v0 14 + u0 14 * v1 14));
    Out 38 (2 * W 15 * (u1 15 * v0 15 + u0 15 * v1 15));
    Out 39 (2 * W 16 * (u1 16 * v0 16 + u0 16 * v1 16));
    Out 40 (2 * W 17 * (u1 17 * v0 17 + u0 17 * v1 17));
    Out 41 (2 * W 18 * (u1 18 * v0 18 + u0 18 * v1 18));
    Out 42 (2 * W 19 * (u1 19 * v0 19 + u0 19 * v1 19));
    Out 43 (2 * W 20 * (u1 20 * v0 20 + u0 20 * v1 20));
    Out 44 (2 * W 21 * (u1 21 * v0 21 + u0 21 * 1));
    Out 45 (2 * W 22 * (u1 22))];
  b2 := [
    Let (u2 3) (2 * d 2 + 2 * u1 2);
    Let (u2 4) (u2 3 * d 3 + 2 * u1 3);
    Let (u2 5) (u2 4 * d 4 + 2 * u1 4);
    Let (u2 6) (u2 5 * d 5 + 2 * u1 5);
    Let (u2 7) (u2 6 * d 6 + 2 * u1 6);
    Let (u2 8) (u2 7 * d 7 + 2 * u1 7);
    Let (u2 9) (u2 8 * d 8 + 2 * u1 8);
    Let (u2 10) (u2 9 * d 9 + 2 * u1 9);
    Let (u2 11) (u2 10 * d 10 + 2 * u1 10);
    Let (u2 12) (u2 11 * d 11 + 2 * u1 11);
    Let (u2 13) (u2 12 * d 12 + 2 * u1 12);
    Let (u2 14) (u2 13 * d 13 + 2 * u1 13);
    Let (u2 15) (u2 14 * d 14 + 2 * u1 14);
    Let (u2 16) (u2 15 * d 15 + 2 * u1 15);
    Let (u2 17) (u2 16 * d 16 + 2 * u1 16);
    Let (u2 18) (u2 17 * d 17 + 2 * u1 17);
    Let (u2 19) (u2 18 * d 18 + 2 * u1 18);
    Let (u2 20) (u2 19 * d 19 + 2 * u1 19);
    Let (u2 21) (u2 20 * d 20 + 2 * u1 20);
    Let (u2 22) (u2 21 * d 21 + 2 * u1 21);
    Let (v2 19) (d 20 * 2 + 2 * v1 20);
    Let (v2 18) (d 19 * v2 19 + 2 * v1 19);
    Let (v2 17) (d 18 * v2 18 + 2 * v1 18);
    Let (v2 16) (d 17 * v2 17 + 2 * v1 17);
    Let (v2 15) (d 16 * v2 16 + 2 * v1 16);
    Let (v2 14) (d 15 * v2 15 + 2 * v1 15);
    Let (v2 13) (d 14 * v2 14 + 2 * v1 14);
    Let (v2 12) (d 13 * v2 13 + 2 * v1 13);
    Let (v2 11) (d 12 * v2 12 + 2 * v1 12);
    Let (v2 10) (d 11 * v2 11 + 2 * v1 11);
    Let (v2 9) (d 10 * v2 10 + 2 * v1 10);
    Let (v2 8) (d 9 * v2 9 + 2 * v1 9);
    Let (v2 7) (d 8 * v2 8 + 2 * v1 8);
    Let (v2 6) (d 7 * v2 7 + 2 * v1 7);
    Let (v2 5) (d 6 * v2 6 + 2 * v1 6);
    Let (v2 4) (d 5 * v2 5 + 2 * v1 5);
    Let (v2 3) (d 4 * v2 4 + 2 * v1 4);
    Let (v2 2) (d 3 * v2 3 + 2 * v1 3);
    Let (v2 1) (d 2 * v2 2 + 2 * v1 2);
    Let (v2 0) (d 1 * v2 1 + 2 * v1 1);
    Out 46 (4 * W 0 * (1 * v2 0));
    Out 47 (4 * W 1 * (2 * 1 * v1 1 + u0 1 * v2 1));
    Out 48 (4 * W 2 * (2 * v0 2 + 2 * u1 2 * v1 2 + u0 2 * v2 2));
    Out 49 (4 * W 3 * (u2 3 * v0 3 + 2 * u1 3 * v1 3 + u0 3 * v2 3));
    Out 50 (4 * W 4 * (u2 4 * v0 4 + 2 * u1 4 * v1 4 + u0 4 * v2 4));
    Out 51 (4 * W 5 * (u2 5 * v0 5 + 2 * u1 5 * v1 5 + u0 5 * v2 5));
    Out 52 (4 * W 6 * (u2 6 * v0 6 + 2 * u1 6 * v1 6 + u0 6 * v2 6));
    Out 53 (4 * W 7 * (u2 7 * v0 7 + 2 * u1 7 * v1 7 + u0 7 * v2 7));
    Out 54 (4 * W 8 * (u2 8 * v0 8 + 2 * u1 8 * v1 8 + u0 8 * v2 8));
    Out 55 (4 * W 9 * (u2 9 * v0 9 + 2 * u1 9 * v1 9 + u0 9 * v2 9));
    Out 56 (4 * W 10 * (u2 10 * v0 10 + 2 * u1 10 * v1 10 + u0 10 * v2 10));
    Out 57 (4 * W 11 * (u2 11 * v0 11 + 2 * u1 11 * v1 11 + u0 11 * v2 11));
    Out 58 (4 * W 12 * (u2 12 * v0 12 + 2 * u1 12 * v1 12 + u0 12 * v2 12));
    Out 59 (4 * W 13 * (u2 13 * v0 13 + 2 * u1 13 * v1 13 + u0 13 * v2 13));
    Out 60 (4 * W 14 * (u2 14 * v0 14 + 2 * u1 14 * v1 14 + u0 14 * v2 14));
    Out 61 (4 * W 15 * (u2 15 * v0 15 + 2 * u1 15 * v1 15 + u0 15 * v2 15));
    Out 62 (4 * W 16 * (u2 16 * v0 16 + 2 * u1 16 * v1 16 + u0 16 * v2 16));
    Out 63 (4 * W 17 * (u2 17 * v0 17 + 2 * u1 17 * v1 17 + u0 17 * v2 17));
    Out 64 (4 * W 18 * (u2 18 * v0 18 + 2 * u1 18 * v1 18 + u0 18 * v2 18));
    Out 65 (4 * W 19 * (u2 19 * v0 19 + 2 * u1 19 * v1 19 + u0 19 * v2 19));
    Out 66 (4 * W 20 * (u2 20 * v0 20 + 2 * u1 20 * v1 20 + u0 20 * 2));
    Out 67 (4 * W 21 * (u2 21 * v0 21 + 2 * u1 21 * 1));
    Out 68 (4 * W 22 * (u2 22 * 1))] |}.

(** gll_lag_24 (poly_imp.h:1803-1935). *)
Definition gll_lag_24 : prog := {|
  nodes := gllz_24;
  b0 := [
    Let (d 0) (X + 2);
    Let (d 1) (X + 2 * G 0);
    Let (d 2) (X + 2 * G 1);
    Let (d 3) (X + 2 * G 2);
    Let (d 4) (X + 2 * G 3);
    Let (d 5) (X + 2 * G 4);
    Let (d 6) (X + 2 * G 5);
    Let (d 7) (X + 2 * G 6);
    Let (d 8) (X + 2 * G 7);
    Let (d 9) (X + 2 * G 8);
    Let (d 10) (X + 2 * G 9);
    Let (d 11) (X + 2 * G 10);
    Let (d 12) (X - 2 * G 10);
    Let (d 13) (X - 2 * G 9);
    Let (d 14) (X - 2 * G 8);
    Let (d 15) (X - 2 * G 7);
    Let (d 16) (X - 2 * G 6);
    Let (d 17) (X - 2 * G 5);
    Let (d 18) (X - 2 * G 4);
    Let (d 19) (X - 2 * G 3);
    Let (d 20) (X - 2 * G 2);
    Let (d 21) (X - 2 * G 1);
    Let (d 22) (X - 2 * G 0);
    Let (d 23) (X - 2);
    Let (u0 1) (1 * d 0);
    Let (u0 2) (u0 1 * d 1);
    Let (u0 3) (u0 2 * d 2);
    Let (u0 4) (u0 3 * d 3);
    Let (u0 5) (u0 4 * d 4);
    Let (u0 6) (u0 5 * d 5);
    Let (u0 7) (u0 6 * d 6);
    Let (u0 8) (u0 7 * d 7);
    Let (u0 9) (u0 8 * d 8);
    Let (u0 10) (u0 9 * d 9);
    Let (u0 11) (u0 10 * d 10);
    Let (u0 12) (u0 11 * d 11);
    Let (u0 13) (u0 12 * d 12);
    Let (u0 14) (u0 13 * d 13);
    Let (u0 15) (u0 14 * d 14);
    Let (u0 16) (u0 15 * d 15);
    Let (u0 17) (u0 16 * d 16);
    Let (u0 18) (u0 17 * d 17);
    Let (u0 19) (u0 18 * d 18);
    Let (u0 20) (u0 19 * d 19);
    Let (u0 21) (u0 20 * d 20);
    Let (u0 22) (u0 21 * d 21);
    Let (u0 23) (u0 22 * d 22);
    Let (v0 22) (d 23 * 1);
    Let (v0 21) (d 22 * v0 22);
    Let (v0 20) (d 21 * v0 21);
    Let (v0 19) (d 20 * v0 20);
    Let (v0 18) (d 19 * v0 19);
    Let (v0 17) (d 18 * v0 18);
    Let (v0 16) (d 17 * v0 17);
    Let (v0 15) (d 16 * v0 16);
    Let (v0 14) (d 15 * v0 15);
    Let (v0 13) (d 14 * v0 14);
    Let (v0 12) (d 13 * v0 13);
    Let (v0 11) (d 12 * v0 12);
    Let (v0 10) (d 11 * v0 11);
    Let (v0 9) (d 10 * v0 10);
    Let (v0 8) (d 9 * v0 9);
    Let (v0 7) (d 8 * v0 8);
    Let (v0 6) (d 7 * v0 7);
    Let (v0 5) (d 6 * v0 6);
    Let (v0 4) (d 5 * v0 5);
    Let (v0 3) (d 4 * v0 4);
    Let (v0 2) (d 3 * v0 3);
    Let (v0 1) (d 2 * v0 2);
    Let (v0 0) (d 1 * v0 1);
    Out 0 (W 0 * 1 * v0 0);
    Out 1 (W 1 * u0 1 * v0 1);
    Out 2 (W 2 * u0 2 * v0 2);
    Out 3 (W 3 * u0 3 * v0 3);
    Out 4 (W 4 * u0 4 * v0 4);
    Out 5 (W 5 * u0 5 * v0 5);
    Out 6 (W 6 * u0 6 * v0 6);
    Out 7 (W 7 * u0 7 * v0 7);
    Out 8 (W 8 * u0 8 * v0 8);
    Out 9 (W 9 * u0 9 * v0 9);
    Out 10 (W 10 * u0 10 * v0 10);
    Out 11 (W 11 * u0 11 * v0 11);
    Out 12 (W 12 * u0 12 * v0 12);
    Out 13 (W 13 * u0 13 * v0 13);
    Out 14 (W 14 * u0 14 * v0 14);
    Out 15 (W 15 * u0 15 * v0 15);
    Out 16 (W 16 * u0 16 * v0 16);
    Out 17 (W 17 * u0 17 * v0 17);
    Out 18 (W 18 * u0 18 * v0 18);
    Out 19 (W 19 * u0 19 * v0 19);
    Out 20 (W 20 * u0 20 * v0 20);
    Out 21 (W 21 * u0 21 * v0 21);
    Out 22 (W 22 * u0 22 * v0 22);
    Out 23 (W 23 * u0 23 * 1)];
  b1 := [
    Let (u1 2) (1 * d 1 + u0 1);
    Let (u1 3) (u1 2 * d 2 + u0 2);
    Let (u1 4) (u1 3 * d 3 + u0 3);
    Let (u1 5) (u1 4 * d 4 + u0 4);
    Let (u1 6) (u1 5 * d 5 + u0 5);
    Let (u1 7) (u1 6 * d 6 + u0 6);
    Let (u1 8) (u1 7 * d 7 + u0 7);
    Let (u1 9) (u1 8 * d 8 + u0 8);
    Let (u1 10) (u1 9 * d 9 + u0 9);
    Let (u1 11) (u1 10 * d 10 + u0 10);
    Let (u1 12) (u1 11 * d 11 + u0 11);
    Let (u1 13) (u1 12 * d 12 + u0 12);
    Let (u1 14) (u1 13 * d 13 + u0 13);
    Let (u1 15) (u1 14 * d 14 + u0 14);
    Let (u1 16) (u1 15 * d 15 + u0 15);
    Let (u1 17) (u1 16 * d 16 + u0 16);
    Let (u1 18) (u1 17 * d 17 + u0 17);
    Let (u1 19) (u1 18 * d 18 + u0 18);
    Let (u1 20) (u1 19 * d 19 + u0 19);
    Let (u1 21) (u1 20 * d 20 + u0 20);
    Let (u1 22) (u1 21 * d 21 + u0 21);
    Let (u1 23) (u1 22 * d 22 + u0 22);
    Let (v1 21) (d 22 * 1 + v0 22);
    Let (v1 20) (d 21 * v1 21 + v0 21);
    Let (v1 19) (d 20 * v1 20 + v0 20);
    Let (v1 18) (d 19 * v1 19 + v0 19);
    Let (v1 17) (d 18 * v1 18 + v0 18);
    Let (v1 16) (d 17 * v1 17 + v0 17);
    Let (v1 15) (d 16 * v1 16 + v0 16);
    Let (v1 14) (d 15 * v1 15 + v0 15);
    Let (v1 13) (d 14 * v1 14 + v0 14);
    Let (v1 12) (d 13 * v1 13 + v0 13);
    Let (v1 11) (d 12 * v1 12 + v0 12);
    Let (v1 10) (d 11 * v1 11 + v0 11);
    Let (v1 9) (d 10 * v1 10 + v0 10);
    Let (v1 8) (d 9 * v1 9 + v0 9);
    Let (v1 7) (d 8 * v1 8 + v0 8);
    Let (v1 6) (d 7 * v1 7 + v0 7);
    Let (v1 5) (d 6 * v1 6 + v0 6);
    Let (v1 4) (d 5 * v1 5 + v0 5);
    Let (v1 3) (d 4 * v1 4 + v0 4);
    Let (v1 2) (d 3 * v1 3 + v0 3);
    Let (v1 1) (d 2 * v1 2 + v0 2);
    Let (v1 0) (d 1 * v1 1 + v0 1);
    Out 24 (2 * W 0 * (v1 0));
    Out 25 (2 * W 1 * (1 * v0 1 + u0 1 * v1 1));
    Out 26 (2 * W 2 * (u1 2 * v0 2 + u0 2 * v1 2));
    Out 27 (2 * W 3 * (u1 3 * v0 3 + u0 3 * v1 3));
    Out 28 (2 * W 4 * (u1 4 * v0 4 + u0 4 * v1 4));
    Out 29 (2 * W 5 * (u1 5 * v0 5 + u0 5 * v1 5));
    Out 30 (2 * W 6 * (u1 6 * v0 6 + u0 6 * v1 6));
    Out 31 (2 * W 7 * (u1 7 * v0 7 + u0 7 * v1 7));
    Out 32 (2 * W 8 * (u1 8 * v0 8 + u0 8 * v1 8));
    Out 33 (2 * W 9 * (u1 9 * v0 9 + u0 9 * v1 9));
    Out 34 (2 * W 10 * (u1 10 * v0 10 + u0 10 * v1 10));
    Out 35 (2 * W 11 * (u1 11 * v0 11 + u0 11 * v1 11));
    Out 36 (2 * W 12 * (u1 12 * v0 12 + u0 12 * v1 12));
    Out 37 (2 * W 13 * (u1 13 * v0 13 + u0 13 * v1 13));
    Out 38 (2 * W 14 * (u1 14 * v0 14 + u0 14 * v1 14));
    Out 39 (2 * W 15 * (u1 15 * v0 15 + u0 15 * v1 15));
    Out 40 (2 * W 16 * (u1 16 * v0 16 + u0 16 * v1 16));
    Out 41 (2 * W 17 * (u1 17 * v0 17 + u0 17 * v1 17));
    Out 42 (2 * W 18 * (u1 18 * v0 18 + u0 18 * v1 18));
    Out 43 (2 * W 19 * (u1 19 * v0 19 + u0 19 * v1 19));
    Out 44 (2 * W 20 * (u1 20 * v0 20 + u0 20 * v1 20));
    Out 45 (2 * W 21 * (u1 21 * v0 21 + u0 21 * v1 21));
    Out 46 (2 * W 22 * (u1 22 * v0 22 + u0 22 * 1));
    Out 47 (2 * W 23 * (u1 23))];
  b2 := [
    Let (u2 3) (2 * d 2 + 2 * u1 2);
    Let (u2 4) (u2 3 * d 3 + 2 * u1 3);
    Let (u2 5) (u2 4 * d 4 + 2 * u1 4);
    Let (u2 6) (u2 5 * d 5 + 2 * u1 5);
    Let (u2 7) (u2 6 * d 6 + 2 * u1 6);
    Let (u2 8) (u2 7 * d 7 + 2 * u1 7);
    Let (u2 9) (u2 8 * d 8 + 2 * u1 8);
    Let (u2 10) (u2 9 * d 9 + 2 * u1 9);
    Let (u2 11) (u2 10 * d 10 + 2 * u1 10);
    Let (u2 12) (u2 11 * d 11 + 2 * u1 11);
    Let (u2 13) (u2 12 * d 12 + 2 * u1 12);
    Let (u2 14) (u2 13 * d 13 + 2 * u1 13);
    Let (u2 15) (u2 14 * d 14 + 2 * u1 14);
    Let (u2 16) (u2 15 * d 15 + 2 * u1 15);
    Let (u2 17) (u2 16 * d 16 + 2 * u1 16);
    Let (u2 18) (u2 17 * d 17 + 2 * u1 17);
    Let (u2 19) (u2 18 * d 18 + 2 * u1 18);
    Let (u2 20) (u2 19 * d 19 + 2 * u1 19);
    Let (u2 21) (u2 20 * d 20 + 2 * u1 20);
    Let (u2 22) (u2 21 * d 21 + 2 * u1 21);
    Let (u2 23) (u2 22 * d 22 + 2 * u1 22);
    Let (v2 20) (d 21 * 2 + 2 * v1 21);
    Let (v2 19) (d 20 * v2 20 + 2 * v1 20);
    Let (v2 18) (d 19 * v2 19 + 2 * v1 19);
    Let (v2 17) (d 18 * v2 18 + 2 * v1 18);
    Let (v2 16) (d 17 * v2 17 + 2 * v1 17);
    Let (v2 15) (d 16 * v2 16 + 2 * v1 16);
    Let (v2 14) (d 15 * v2 15 + 2 * v1 15);
    Let (v2 13) (d 14 * v2 14 + 2 * v1 14);
    Let (v2 12) (d 13 * v2 13 + 2 * v1 13);
    Let (v2 11) (d 12 * v2 12 + 2 * v1 12);
    Let (v2 10) (d 11 * v2 11 + 2 * v1 11);
    Let (v2 9) (d 10 * v2 10 + 2 * v1 10);
    Let (v2 8) (d 9 * v2 9 + 2 * v1 9);
    Let (v2 7) (d 8 * v2 8 + 2 * v1 8);
    Let (v2 6) (d 7 * v2 7 + 2 * v1 7);
    Let (v2 5) (d 6 * v2 6 + 2 * v1 6);
    Let (v2 4) (d 5 * v2 5 + 2 * v1 5);
    Let (v2 3) (d 4 * v2 4 + 2 * v1 4);
    Let (v2 2) (d 3 * v2 3 + 2 * v1 3);
    Let (v2 1) (d 2 * v2 2 + 2 * v1 2);
    Let (v2 0) (d 1 * v2 1 + 2 * v1 1);
    Out 48 (4 * W 0 * (1 * v2 0));
    Out 49 (4 * W 1 * (2 * 1 * v1 1 + u0 1 * v2 1));
    Out 50 (4 * W 2 * (2 * v0 2 + 2 * u1 2 * v1 2 + u0 2 * v2 2));
    Out 51 (4 * W 3 * (u2 3 * v0 3 + 2 * u1 3 * v1 3 + u0 3 * v2 3));
    Out 52 (4 * W 4 * (u2 4 * v0 4 + 2 * u1 4 * v1 4 + u0 4 * v2 4));
    Out 53 (4 * W 5 * (u2 5 * v0 5 + 2 * u1 5 * v1 5 + u0 5 * v2 5));
    Out 54 (4 * W 6 * (u2 6 * v0 6 + 2 * u1 6 * v1 6 + u0 6 * v2 6));
    Out 55 (4 * W 7 * (u2 7 * v0 7 + 2 * u1 7 * v1 7 + u0 7 * v2 7));
    Out 56 (4 * W 8 * (u2 8 * v0 8 + 2 * u1 8 * v1 8 + u0 8 * v2 8));
    Out 57 (4 * W 9 * (u2 9 * v0 9 + 2 * u1 9 * v1 9 + u0 9 * v2 9));
    Out 58 (4 * W 10 * (u2 10 * v0 10 + 2 * u1 10 * v1 10 + u0 10 * v2 10));
    Out 59 (4 * W 11 * (u2 11 * v0 11 + 2 * u1 11 * v1 11 + u0 11 * v2 11));
    Out 60 (4 * W 12 * (u2 12 * v0 12 + 2 * u1 12 * v1 12 + u0 12 * v2 12));
    Out 61 (4 * W 13 * (u2 13 * v0 13 + 2 * u1 13 * v1 13 + u0 13 * v2 13));
    Out 62 (4 * W 14 * (u2 14 * v0 14 + 2 * u1 14 * v1 14 + u0 14 * v2 14));
    Out 63 (4 * W 15 * (u2 15 * v0 15 + 2 * u1 15 * v1 15 + u0 15 * v2 15));
    Out 64 (4 * W 16 * (u2 16 * v0 16 + 2 * u1 16 * v1 16 + u0 16 * v2 16));
    Out 65 (4 * W 17 * (u2 17 * v0 17 + 2 * u1 17 * v1 17 + u0 17 * v2 17));
    Out 66 (4 * W 18 * (u2 18 * v0 18 + 2 * u1 18 * v1 18 + u0 18 * v2 18));
    Out 67 (4 * W 19 * (u2 19 * v0 19 + 2 * u1 19 * v1 19 + u0 19 * v2 19));
    Out 68 (4 * W 20 * (u2 20 * v0 20 + 2 * u1 20 * v1 20 + u0 20 * v2 20));
    Out 69 (4 * W 21 * (u2 21 * v0 21 + 2 * u1 21 * v1 21 + u0 21 * 2));
    Out 70 (4 * W 22 * (u2 22 * v0 22 + 2 * u1 22 * 1));
    Out 71 (4 * W 23 * (u2 23 * 1))] |}.

(** gllz_table (poly_imp.h:1937-1941). *)
Definition gllz_table : list (list Z) := [gllz_04; gllz_05; gllz_06; gllz_07; gllz_08; gllz_09; gllz_10; gllz_11; gllz_12; gllz_13; gllz_14; gllz_15; gllz_16; gllz_17; gllz_18; gllz_19; gllz_20; gllz_21; gllz_22; gllz_23; gllz_24].

(** gll_lag_table (poly_imp.h:1943-1948). *)
Definition gll_lag_table : list prog := [gll_lag_02; gll_lag_03; gll_lag_04; gll_lag_05; gll_lag_06; gll_lag_07; gll_lag_08; gll_lag_09; gll_lag_10; gll_lag_11; gll_lag_12; gll_lag_13; gll_lag_14; gll_lag_15; gll_lag_16; gll_lag_17; gll_lag_18; gll_lag_19; gll_lag_20; gll_lag_21; gll_lag_22; gll_lag_23; gll_lag_24].

(** GLL_LAG_FIX_MAX (poly_imp.h:3). *)
Definition GLL_LAG_FIX_MAX : nat := 24.
