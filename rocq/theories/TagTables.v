(** * The code tables of the tag families

    The constants of /repo/aslam_offline_calibration/aslam_apriltag2/include/aslam_apriltag2/Tag*.h
    (the arrays and the TagCodes objects made of them), in decimal. *)
From Coq Require Import NArith ZArith List.
From Verif Require Import TagModel.
Import ListNotations.
Local Open Scope N_scope.

(** Tag16h5.h line 36 ff. *)
Definition t16h5 : list N := [
  8987; 11941; 13418; 17849; 31142; 32619; 45912; 59205; 65113; 5485;
  14347; 61611; 3460; 18230; 35954; 44816; 2364; 37812; 42243; 18063;
  57655; 22421; 57154; 7197; 59868; 29613; 44383; 54576; 1994; 44846].
Definition tagCodes16h5 : family := make_family 16 5 t16h5.

(** Tag16h5_other.h line 9 ff. *)
Definition t16h5_other : list N := [
  8987; 11941; 13418; 17849; 26711; 32619; 44435; 45912; 47389; 59205;
  5485; 54226; 57180; 18230; 35954; 23042; 54059; 6247; 18063; 56465;
  18752; 43501; 11221; 22938; 36873; 25078; 14416; 33111; 49098; 39036].
Definition tagCodes16h5_other : family := make_family 16 5 t16h5_other.

(** Tag25h7.h line 46 ff. *)
Definition t25h7 : list N := [
  4945677; 18256870; 27629995; 12821813; 22194938; 11324824; 30071074; 2895789; 12268914; 21642039;
  25580107; 13213004; 2342890; 21089140; 30462265; 23530219; 8722037; 22033230; 7225048; 16598173;
  11163116; 29909366; 22977320; 8169138; 21480331; 30853456; 9113228; 18486353; 22424421; 20927432;
  13995386; 8560329; 16436465; 20374533; 8007430; 17380555; 23759702; 27697770; 16274757; 26591972;
  2410665; 19659926; 23597994; 27536062; 22492196; 17057139; 11622082; 6187025; 23436286; 30759523;
  6025317; 14845543; 32094804; 25001050; 32877186; 27442129; 1763833; 19242577; 20186667; 14751610;
  15533992; 23248420; 5837451; 23477903; 1737675; 4569945; 25757274; 4961136; 24098577; 19054711;
  15507834; 14402036; 8966979; 5811293; 12190440; 1711517; 29830892; 9587653; 14469811; 8940821;
  24693093; 6014618; 24207969; 24437452; 32313588; 1403560; 4074122; 2577133; 22267473; 24385136;
  7756549; 18464955; 24291203; 5221537; 15929943; 19153404; 866120; 12721941; 11292727; 25224594;
  8204816; 10645895; 2879151; 2555735; 6884994; 7829084; 27910615; 21020186; 27926074; 26496860;
  26955826; 1480855; 17206969; 15928764; 17211729; 30752405; 20221166; 13586378; 24284085; 14425836;
  6940891; 23991587; 17168933; 25869068; 12855133; 7179894; 15259355; 14774231; 28059266; 7816027;
  10705373; 3841102; 19108250; 31610903; 174134; 1394084; 18914445; 12279657; 31203074; 6119294;
  19727745; 20416194; 14767113; 27932057; 20556504; 11574570; 5523599; 20722972; 9920633; 11688722;
  28171060; 30090158; 18306872; 19938232; 13924118; 25743082; 12253543; 19033401; 20310427; 3452357;
  3029069; 9491450; 2303763; 24988081; 11175126; 12770808; 23483974; 5190751; 2258609; 19226071;
  24071372; 4894716; 12873126; 8767411; 19996619; 10251343; 25680199; 8747236; 14860043; 10492748;
  10570043; 8050534; 13434498; 26745691; 30067845; 5647579; 22744696; 9397957; 3355327; 19720020;
  617078; 30794682; 2615873; 21238495; 6797748; 14329114; 1952535; 5065469; 6501845; 15606580;
  24989269; 28881136; 21600739; 22101498; 7757042; 5681040; 19797676; 30660716; 16721819; 25699037;
  10081400; 9289938; 3454566; 13604134; 25576509; 8031785; 27028133; 32678525; 19603766; 13683981;
  19706656; 25025291; 341307; 22752431; 31827207; 18936293; 18112602; 21954124; 5669172; 18587538;
  24433319; 6892317; 3794174; 11206461; 9839180; 20750199; 17886863; 15825898; 10091357; 3371329;
  177485; 19085936].
Definition tagCodes25h7 : family := make_family 25 7 t25h7.

(** Tag25h9.h line 47 ff. *)
Definition t25h9 : list N := [
  22399985; 31773110; 24841064; 32164301; 19797198; 3492027; 7821286; 17194411; 29008615; 14591624;
  8509735; 5354049; 14403758; 31788569; 22550994; 23954050; 23322677; 10328961; 24374980; 11418121;
  6257745; 27342844; 14456162; 25177669; 29578284; 8851364; 9520905; 23495920; 13169317; 8601275;
  5861759; 20762704; 16386769; 28795824; 12161486].
Definition tagCodes25h9 : family := make_family 25 9 t25h9.

(** Tag36h11.h line 59 ff. *)
Definition t36h11 : list N := [
  57401312644; 58383764297; 59366215950; 61331119256; 63296022562; 65260925868; 1453707397; 4401062356; 9313320621; 10295772274;
  14225578886; 17172933845; 18155385498; 19137837151; 21102740457; 22085192110; 24050095416; 27979902028; 28962353681; 33874611946;
  34857063599; 35839515252; 37804418558; 42716676823; 43699128476; 46646483435; 47628935088; 49593838394; 56470999965; 57453451618;
  61383258230; 12312814554; 18207524472; 23119782737; 27049589349; 28032041002; 29014492655; 29996944308; 37856557532; 42768815797;
  46698622409; 50628429021; 56523138939; 58488042245; 61435397204; 67330107122; 6470243610; 10400050222; 12364953528; 17277211793;
  32013986588; 35943793200; 37908696506; 42820954771; 52645471301; 55592826260; 5539930931; 13399544155; 29118770603; 31083673909;
  36978383827; 37960835480; 38943287133; 44837997051; 46802900357; 49750255316; 49802394290; 57662007514; 5644208879; 20380983674;
  21363435327; 27258145245; 44942274999; 63608856406; 7661251159; 14538412730; 22398025954; 25345380913; 32222542484; 62678543727;
  24415068234; 31292229805; 63713134354; 25449658861; 33309272085; 51975853492; 62782821675; 15677281305; 45150830895; 20641678544;
  21624130197; 36360904992; 45202969869; 62887099623; 6939494376; 9886849335; 29535882395; 41325302231; 13868794921; 19763504839;
  21728408145; 27623118063; 40447128526; 41429580179; 46341838444; 52236548362; 37551912541; 59165848907; 6165598619; 20902373414;
  57253084575; 60200439534; 68060052758; 31761480571; 58287675202; 54410007564; 30883306866; 46602533314; 47584984967; 22197658911;
  6530571437; 32126453389; 39986066613; 2705042773; 26283882445; 42985560546; 8651891665; 33213182990; 40194622509; 17650373464;
  38281858177; 3948189296; 42315942737; 58035169185; 59278315708; 20032388562; 25979237454; 20188805484; 1730779973; 49870910970;
  28309113578; 26500627194; 13780894679; 50131605840; 44445451818; 24848557732; 10216060885; 11198512538; 38707158822; 46827466916;
  16423604647; 35142325028; 4738462759; 7685817718; 44036528879; 50965829424; 3860289054; 40419556111; 27908379492; 26047754134;
  47870246396; 1851435627; 49061253945; 52991060557; 35515486699; 18865947572; 2424964341; 34176251081; 46948122570; 25386325178;
  56981194996; 10962384227; 1294284619; 11744468837; 40496261644; 20177610775; 2084558082; 62118386863; 6275059564; 6483615460;
  26445482364; 30792400768; 10265194003; 67247389877; 33896172649; 27175428000; 31209512560; 2770553597; 31261651534; 5770047530;
  35147508025; 34582168164; 11524718232; 47414367480; 48657514003; 33146843451; 7759517395; 6107447933; 63976006365; 8445512910;
  42005286034; 61045029112; 25059290769; 19425275721; 61983530644; 47768145589; 2635697378; 57452622903; 426476908; 64598668197;
  5034090182; 26499798479; 46461665383; 55355869234; 28733585508; 20525377172; 21568156652; 57413855779; 42937775854; 42372435993;
  7429477130; 53151831761; 40588516168; 7758688680; 23530054102; 67070760678; 35335851644; 38291395456; 47089510212; 36334681003;
  58574285057; 11468744687; 56806742938; 37061620783; 25645362618; 66801048240; 52176740246; 1871338900; 61251927578; 49262140699;
  32516512477; 24376820821; 12820523440; 62889796475; 47455831456; 7205063239; 994513621; 65114565936; 38031220297; 2731477469;
  3052500166; 61554915139; 49877962104; 19915778186; 10664790370; 49501794577; 65229209878; 34937814410; 40536068190; 22234459601;
  23718917432; 50966040131; 22968759519; 30756850207; 27164443998; 56862927190; 32987631380; 12207918598; 13250698078; 67971534508;
  64927261739; 23046813478; 38409255961; 41120482609; 26540124736; 39328373931; 28389555385; 44951194270; 10312880398; 7269436344;
  26385884955; 7603830891; 13026284187; 287168110; 41017553087; 37477285852; 30789296615; 42641221419; 40481134067; 26682860804;
  29169153850; 43057504496; 62181313245; 35001878511; 45660618625; 41403777604; 349364074; 3056756151; 12617571955; 40776452486;
  9809427497; 67469430033; 2980570329; 20394987645; 22789545878; 20423908486; 55193244006; 19750456106; 22551760137; 37417379439;
  53715317598; 36236737884; 55335980074; 7166619232; 34436131349; 59054435641; 23216096652; 11658970556; 8716798594; 46620484266;
  49698860873; 22006225252; 28218123296; 66097242409; 15500567922; 58566012020; 8807086684; 63977790318; 67517228838; 47985845576;
  54401945234; 46860348851; 31330294737; 5229400751; 22001772673; 57565735938; 27180428516; 66912503845; 62329976841; 31850757465;
  66468859060; 40113801627; 33117332828; 55946843302; 55945185872; 10674046871; 50568550834; 54780613019; 63208262956; 2466049242;
  37009313441; 10043308596; 49011025447; 8311738452; 36030289058; 63790612644; 15550557981; 55068585413; 12244663330; 4862489725;
  15001188525; 4730330358; 11970498313; 57179553760; 4492348023; 22505689327; 38860120742; 33989326453; 40698258385; 10721466601;
  63077396057; 33462149821; 5520533750; 38960072634; 48247552136; 16819675941; 19470574762; 42975405753; 55088236134; 17182598141;
  60599348316; 15542987630; 59699951138; 62673024488; 33398507628; 67990904945; 38582571288; 17369270711; 47111198426; 30300382497;
  12713282963; 16989100245; 2618857401; 2037870252; 2226129687; 15726205198; 10944266389; 15523478533; 32807393912; 50322268718;
  41475554668; 28089982957; 44557302587; 3281607545; 56188592113; 38250931033; 55092859057; 49186125715; 23534902339; 63390962295;
  32306807219; 31575218266; 44208089961; 43362882375; 58820037795; 36371709477; 13411500472; 5204752972; 1977137594; 32984502953;
  45158110801; 34100715445; 3503256489; 47326218638; 66132095224; 27344434842; 12073010867; 5581905445; 65632631643; 3961973387;
  18449683548; 47559721156; 40164498818; 53549298266; 19497407586; 35325378674; 63495144910; 50306667721; 61648327423; 14377029940;
  35793001718; 27741435618; 4664673183; 2223538542; 45887401030; 66699434191; 37512143607; 4327400291; 28201882487; 65965472985;
  55470468086; 40081549062; 11906812512; 62042355015; 18346608169; 64036138305; 56632642930; 32443178963; 34915890934; 31223083687;
  52865856710; 14625332685; 52020874438; 45086377277; 42231824779; 22378717616; 45075690142; 17761205065; 39357851814; 19571339212;
  45509720380; 25425990526; 8187447223; 14083479811; 12599191336; 23931047094; 285981281; 8050083055; 18375482651; 68398671257;
  39470446339; 34483786205; 14293264032; 11840597452; 52028357079; 18655102270; 57562297664; 18391098962; 55789070408; 39479755059;
  16921383918; 37747421050; 45531438728; 3925520940; 21060187387; 63584486024; 46118859216; 52663060332; 34045177504; 61677388483;
  57364197806; 10846878694; 5910056340; 25517457550; 46772013866; 42778087689; 37271836375; 13995057252; 12865051990; 51177733636;
  1258462956; 29509907509; 14789960060; 22956996066; 12577438562; 2245444882; 57657560591; 11674975337; 44721593371; 64519763166;
  20659025261; 23393601505; 30854914782; 7763994121; 19414656060; 9969487209; 14430208209; 44249069735; 3675975698; 61768025949;
  1576026001; 40716361915; 13646331887; 48923374530; 18691574214; 28489821665; 23576061426; 24337422446; 3431308682; 61182758056;
  22793281966; 18363218694; 31430488766; 15057209589; 16683733900; 45770064437; 59920337435; 4087591922; 48519091831; 46742923501;
  34864967069; 43127841100; 38367565737; 19126814041; 62462892087; 46281919037; 42639532513; 25462922955; 1933639297; 21709440703;
  21298892938; 54525655228; 17219513647; 15427824620; 22529935601; 33667726627; 39637835710; 37112719582; 12858744915; 45967164474;
  5206104837; 19250736854; 5074169601; 22279632263; 15591759320; 17157469540; 63031446439; 2267780344; 58667694498; 41516404011;
  8377134390; 6616417823; 11867490755; 13765362826; 34128921134; 9757026555; 62339828595].
Definition tagCodes36h11 : family := make_family 36 11 t36h11.

(** Tag36h11_other.h line 9 ff. *)
Definition t36h11_other : list N := [
  57401312644; 58383764297; 59366215950; 61331119256; 63296022562; 65260925868; 1453707397; 4401062356; 6365965662; 9313320621;
  10295772274; 14225578886; 17172933845; 18155385498; 19137837151; 21102740457; 22085192110; 24050095416; 27979902028; 28962353681;
  33874611946; 34857063599; 35839515252; 37804418558; 42716676823; 43699128476; 46646483435; 47628935088; 49593838394; 56470999965;
  57453451618; 61383258230; 12312814554; 18207524472; 23119782737; 27049589349; 28032041002; 29014492655; 29996944308; 37856557532;
  41786364144; 42768815797; 46698622409; 50628429021; 56523138939; 58488042245; 61435397204; 67330107122; 6470243610; 10400050222;
  12364953528; 17277211793; 30049083282; 32013986588; 35943793200; 37908696506; 42820954771; 52645471301; 55592826260; 5539930931;
  13399544155; 18311802420; 29118770603; 31083673909; 36978383827; 37960835480; 38943287133; 44837997051; 46802900357; 49750255316;
  49802394290; 57662007514; 5644208879; 20380983674; 21363435327; 27258145245; 44942274999; 63608856406; 7661251159; 14538412730;
  22398025954; 32222542484; 53836478850; 62678543727; 24415068234; 68625392619; 25449658861; 33309272085; 51975853492; 62782821675;
  15677281305; 45150830895; 20641678544; 21624130197; 36360904992; 45202969869; 62887099623; 6939494376; 9886849335; 22658720824;
  29535882395; 41325302231; 19763504839; 21728408145; 27623118063; 19815643813; 40447128526; 41429580179; 46341838444; 37551912541;
  48358880724; 59165848907; 20902373414; 57253084575; 68060052758; 31761480571; 56322771896; 57305223549; 58287675202; 54410007564;
  30883306866; 46602533314; 47584984967; 6530571437; 32126453389; 39986066613; 2705042773; 26283882445; 42985560546; 50845173770;
  8651891665; 33213182990; 32282870311; 54001084625; 39368587778; 42315942737; 59278315708; 20032388562; 25979237454; 20188805484;
  26083515402; 32030364294; 33995267600; 2661092652; 1730779973; 49870910970; 40098533414; 26500627194; 50131605840; 23813967105;
  44445451818; 62129581572; 65129075505; 38707158822; 52461481964; 46827466916; 16423604647; 35142325028; 7685817718; 44036528879;
  50965829424; 3860289054; 23717878010; 40419556111; 23770016984; 27699823596; 37680757048; 17518523101; 1851435627; 26412726952;
  49061253945; 52991060557; 18865947572; 2424964341; 32315625723; 56981194996; 10962384227; 1294284619; 53885611968; 1867813333;
  10709878210; 11744468837; 40496261644; 68109185876; 19247298096; 57771468459; 14804290597; 62118386863; 18116618374; 11552290647;
  39113075905; 26445482364; 15742792129; 10265194003; 67247389877; 5770047530; 65908154259; 63534328014; 35147508025; 35564619817;
  28069979411; 11524718232; 4603606540; 7759517395; 3837899636; 28102734823; 7575528058; 67505078891; 39587509668; 1689006993;
  30180104930; 18503151895; 36143331528; 46906349590; 65833625867; 49653337506; 64598668197; 5034090182; 56277993060; 28977902672;
  26499798479; 61728018771; 3510865227; 24419422516; 29696653599; 42937775854; 59691592929; 48796724504; 24512505755; 57968000931;
  64227683667; 45308596243; 16424953073; 13955037733; 18205867042; 42190623797; 25645362618; 64638783747; 56630942454; 48831657057;
  34103071115; 61251927578; 31838705815; 40732909666; 32516512477; 34742110653; 56929575733; 17002836069; 11429148848; 54456654537;
  30457697217; 35619455643; 41774860431; 22402899947; 64030842191; 25174454422; 1540469920; 12355626956; 3052500166; 47652363928;
  56085505866; 3719112119; 50758312950; 20038610981; 43573500532; 58318464180; 40606762011; 1429351545; 30101432963; 43776044716;
  40452522230; 19549147938; 5591451897; 4803355575; 14921322387; 30582398149; 45640195641; 55533228851; 22222955888; 589635960;
  24058185972; 50208213076; 41017553087; 12229999012; 65968383789; 42641221419; 21702085859; 61634008520; 60294772902; 20093137803;
  50337577294; 22889258837; 41403777604; 61060999517; 32594468139; 29238190241; 10656503220; 29504068108; 19975179001; 28721154783;
  5781354649; 7334329160; 29284837214; 31054556474; 7107738128; 20373426942; 11497777938; 45144622589; 50410658963; 62040656021;
  31592843631; 47428891162; 1708713672; 14805962140; 49247434536; 46565957444; 38867115424; 12469765300; 52234076330; 47378311321;
  38359617245; 7205597063; 8646104773; 55052797489; 5924203127; 37071382882; 58945705114; 23480527796; 17091171838; 347720757;
  25849381751; 67991044593; 60858371149; 28982594184; 2918809892; 53131647710; 61408063722; 41706062973; 17182710057; 21099664530;
  38800382697; 43147301101; 56148460474; 18013520484; 49311625160; 56125453048; 9985157910; 50833192685; 64734297173; 25747407467;
  12089384127; 54537349390; 2333075273; 10479298352; 3989302423; 45037704241; 5694030570; 26192836205; 34034105289; 42960235837;
  53398916342; 38528633754; 64502031659; 3522860919; 35726402711; 12232148421; 67747612596; 26791465302; 27276265059; 50276603727;
  30263328267; 67441942296; 39052116451; 21852786454; 1001761843; 11359284236; 2127370978; 1715652890; 54891394658; 49540154894;
  17401505918; 18571683182; 66779502144; 53288051013; 28825138334; 1724796981; 5666528720; 46593446169; 38562906454; 57937254786;
  10203462286; 3641002696; 49479363808; 45340383292; 43573880595; 32160319282; 28823635653; 34629616614; 40118311152; 43364622507;
  65987037921; 42625982420; 12424355331; 32670247648; 26011698963; 62925586957; 43530001039; 25866294269; 23462437690; 62954156949;
  34320013940; 40840223178; 48032002546; 19919474097; 48783677747; 23686922640; 54020933916; 59231727163; 8939543412; 22104592255;
  9057656963; 64655009668; 4289497305; 23613813733; 19984817541; 36649498358; 7395390369; 28120393848; 32403880272; 26769795153;
  34042212922; 14242493874; 23107481993; 16935208508; 56637042796; 45034857086; 14690508042; 50635850057; 50025212143; 55344019612;
  32056804424; 55321883240; 38477693891; 31379672222; 19023690622; 11702884266; 48792460334; 5068706040; 36338859226; 66855792685;
  34041304469; 42292873144; 50517051885; 32125759595; 35119564933; 65734932996; 48360238042; 58815844190; 61732888037; 49659822357;
  13293829364; 64384756703; 62985825379; 41405445408; 26600042017; 59620755721; 49764257030; 37191685430; 2884367061; 28512386911;
  26520740399; 13311321503; 41716640875; 40252311137; 11566268087; 54172687271; 18313672746; 55882994073; 61496825564; 18050143846;
  59050971679; 26599152123; 1746601770; 9906828820; 12962439898; 9759391079; 853908829; 32469229857; 66419526316; 8828041942;
  41145848601; 1905961887; 46141597362; 41807550150; 55572325446; 63951039353; 62597352594; 41869289771; 5367235733; 58302020006;
  30707207897; 1322866612; 50315009211; 18800117941; 12176403512; 55484525903; 35069076550; 1298698394; 35212096360; 9712767256;
  56335409172; 38683451470; 6914217236; 16806627711; 8188640483; 23005803597; 64409183129; 17199637898; 7865962051; 21717711565;
  14477723834; 32018308352; 56688473523; 22755999730; 24087720955; 15885696651; 5275701407; 53051777919; 32928733992; 10623820154;
  15676683637; 32416151326; 6317515420; 37408694392; 44498446976; 52282555754; 65020512172; 25802696418; 12270256426; 57919599178;
  61438912501; 62620512403; 60262209606; 43032965637; 61334077733; 38691386393; 52095871704; 53268647523; 56508094671; 26819265333;
  11448565902; 47263011242; 12340455535; 43788060145; 62478995147; 20625776569; 44622535157; 57795228374; 66176262954; 49163382334;
  53068941697; 27867027640; 48315958522; 64718343985; 33944199097; 9911273082; 37227838698; 1241963680; 30232800619; 30295628568;
  20792646057; 46938806489; 26400045487; 25654821971; 64502737358; 55062737536; 30870799783; 46631925036; 24075219510; 64926133763;
  64696853008; 33544237781; 66651625736; 44179840003; 18208550727; 38269807908; 41880745193; 40058680707; 16512565692; 881509967;
  11293708225; 42888223949; 23372294340].
Definition tagCodes36h11_other : family := make_family 36 11 t36h11_other.

(** Tag36h9.h line 58 ff. *)
Definition t36h9 : list N := [
  5128756954; 6111208607; 7093660260; 8076111913; 9058563566; 10041015219; 11023466872; 13970821831; 14953273484; 17900628443;
  19865531749; 22812886708; 23795338361; 27725144973; 29690048279; 31654951585; 32637403238; 33619854891; 34602306544; 36567209850;
  37549661503; 41479468115; 42461919768; 44426823074; 45409274727; 46391726380; 47374178033; 48356629686; 50321532992; 51303984645;
  53268887951; 54251339604; 57198694563; 58181146216; 66040759440; 67023211093; 2233540969; 3215992622; 8128250887; 11075605846;
  12058057499; 15005412458; 19917670723; 22865025682; 23847477335; 27777283947; 28759735600; 30724638906; 34654445518; 35636897171;
  36619348824; 37601800477; 40549155436; 46443865354; 48408768660; 53321026925; 54303478578; 56268381884; 57250833537; 59215736843;
  61180640149; 62163091802; 64127995108; 320776637; 3268131596; 4250583249; 5233034902; 6215486555; 9162841514; 12110196473;
  14075099779; 17022454738; 18004906391; 20952261350; 21934713003; 23899616309; 24882067962; 25864519615; 27829422921; 28811874574;
  29794326227; 31759229533; 36671487798; 37653939451; 39618842757; 40601294410; 44531101022; 53373165899; 55338069205; 58285424164;
  59267875817; 62215230776; 66145037388; 5285173876; 11179883794; 12162335447; 15109690406; 16092142059; 18057045365; 19039497018;
  21986851977; 28864013548; 29846465201; 30828916854; 31811368507; 35741175119; 37706078425; 39670981731; 42618336690; 46548143302;
  47530594955; 48513046608; 54407756526; 55390208179; 57355111485; 60302466444; 61284918097; 62267369750; 64232273056; 65214724709;
  66197176362; 4354861197; 7302216156; 10249571115; 11232022768; 12214474421; 13196926074; 16144281033; 18109184339; 22038990951;
  23021442604; 26951249216; 30881055828; 31863507481; 32845959134; 33828410787; 35793314093; 38740669052; 40705572358; 42670475664;
  43652927317; 44635378970; 47582733929; 48565185582; 49547637235; 55442347153; 57407250459; 58389702112; 60354605418; 65266863683;
  67231766989; 2442096865; 4407000171; 6371903477; 9319258436; 15213968354; 19143774966; 20126226619; 29950743149; 36827904720;
  37810356373; 38792808026; 41740162985; 43705066291; 44687517944; 46652421250; 49599776209; 51564679515; 53529582821; 62371647698;
  63354099351; 64336551004; 65319002657; 67283905963; 529332533; 9371397410; 19195913940; 20178365593; 21160817246; 25090623858;
  27055527164; 28037978817; 30002882123; 30985333776; 32950237082; 35897592041; 36880043694; 44739656918; 45722108571; 47687011877;
  50634366836; 51616818489; 54564173448; 55546625101; 56529076754; 59476431713; 60458883366; 62423786672; 63406238325; 67336044937;
  68318496590; 2546374813; 10405988037; 11388439690; 12370891343; 13353342996; 20230504567; 24160311179; 25142762832; 29072569444;
  30055021097; 32019924403; 36932182668; 38897085974; 43809344239; 44791795892; 51668957463; 52651409116; 54616312422; 57563667381;
  60511022340; 66405732258; 5545868746; 7510772052; 11440578664; 12423030317; 13405481970; 15370385276; 22247546847; 23229998500;
  25194901806; 28142256765; 39931676601; 40914128254; 42879031560; 43861483213; 45826386519; 51721096437; 54668451396; 56633354702;
  57615806355; 58598258008; 59580709661; 63510516273; 68422774538; 1668201108; 5598007720; 15422524250; 17387427556; 19352330862;
  27211944086; 28194395739; 39983815575; 40966267228; 42931170534; 45878525493; 49808332105; 54720590370; 56685493676; 63562655247;
  64545106900; 737888429; 2702791735; 3685243388; 6632598347; 12527308265; 14492211571; 16457114877; 20386921489; 23334276448;
  26281631407; 28246534713; 35123696284; 39053502896; 40035954549; 43965761161; 44948212814; 47895567773; 52807826038; 55755180997;
  58702535956; 62632342568; 65579697527; 5702285668; 10614543933; 13561898892; 15526802198; 19456608810; 25351318728; 26333770381;
  28298673687; 31246028646; 35175835258; 39105641870; 43035448482; 45982803441; 48930158400; 50895061706; 53842416665; 54824868318;
  57772223277; 61702029889; 66614288154; 5754424642; 7719327948; 11649134560; 13614037866; 14596489519; 22456102743; 25403457702;
  36210425885; 41122684150; 44070039109; 47017394068; 48982297374; 50947200680; 53894555639; 54877007292; 56841910598; 59789265557;
  60771717210; 4824111963; 9736370228; 16613531799; 19560886758; 22508241717; 23490693370; 28402951635; 30367854941; 36262564859;
  42157274777; 48051984695; 51981791307; 4876250937; 11753412508; 13718315814; 20595477385; 22560380691; 26490187303; 27472638956;
  29437542262; 43191865404; 46139220363; 47121672016; 52033930281; 53998833587; 66770705076; 2963486605; 16717809747; 25559874624;
  27524777930; 28507229583; 29489681236; 48156262643; 49138714296; 51103617602; 53068520908; 54050972561; 55033424214; 56015875867;
  61910585785; 64857940744; 4980528885; 5962980538; 11857690456; 14805045415; 24629561945; 25612013598; 26594465251; 36418981781;
  37401433434; 41331240046; 46243498311; 52138208229; 57050466494; 62945176412; 120409594; 2085312900; 5032667859; 9944926124;
  11909829430; 15839636042; 21734345960; 22716797613; 23699249266; 30576410837; 35488669102; 36471120755; 44330733979; 47278088938;
  53172798856; 66927121998; 4102355180; 9997065098; 10979516751; 17856678322; 18839129975; 22768936587; 24733839893; 28663646505;
  34558356423; 41435517994; 43400421300; 44382872953; 48312679565; 53224937830; 55189841136; 63049454360; 65996809319; 12996559031;
  19873720602; 23803527214; 29698237132; 46399915233; 55241980110; 62119141681; 66048948293; 10101343046; 14031149658; 15996052964;
  17960956270; 20908311229; 22873214535; 24838117841; 28767924453; 34662634371; 35645086024; 51364312472; 59223925696; 64136183961;
  7206127061; 18995546897; 25872708468; 32749870039; 45521741528; 47486644834; 55346258058; 12170524300; 18065234218; 26907299095;
  29854654054; 31819557360; 36731815625; 45573880502; 49503687114; 56380848685; 11240211621; 26959438069; 29906793028; 32854147987;
  45626019476; 46608471129; 62327697577; 11292350595; 19151963819; 36836093573; 37818545226; 38800996879; 46660610103; 48625513409;
  52555320021; 14291844528; 26081264364; 28046167670; 31975974282; 39835587506; 42782942465; 56537265607; 5501918625; 9431725237;
  17291338461; 20238693420; 26133403338; 28098306644; 40870178133; 49712243010; 57571856234; 59536759540; 66413921111; 6536509252;
  8501412558; 11448767517; 20290832394; 23238187353; 29132897271; 46817027025; 51729285290; 55659091902; 57623995208; 61553801820;
  17395616409; 24272777980; 35079746163; 39992004428; 44904262693; 45886714346; 48834069305; 49816520958; 56693682529; 58658585835;
  60623489141; 3693432241; 10570593812; 11553045465; 14500400424; 26289820260; 27272271913; 28254723566; 41026595055; 43973950014;
  45938853320; 47903756626; 1780667909; 5710474521; 21429700969; 31254217499; 34201572458; 40096282376; 44026088988; 45990992294;
  47955895600; 53850605518; 61710218742; 17552033331; 21481839943; 23446743249; 37201066391; 40148421350; 44078227962; 49972937880;
  50955389533; 10727010734; 11709462387; 13674365693; 17604172305; 19569075611; 32340947100; 33323398753; 35288302059; 47077721895;
  57884690078; 61814496690; 2919536484; 16673859626; 27480827809; 29445731115; 30428182768; 31410634421; 35340441033; 43200054257;
  48112312522; 53024570787; 54007022440; 54989474093; 61866635664; 63831538970; 4936578764; 6901482070; 11813740335; 19673353559;
  21638256865; 44234644884; 56024064720; 2041362779; 4988717738; 8918524350; 13830782615; 25620202451; 31514912369; 35444718981;
  38392073940; 44286783858; 48216590470; 51163945429; 54111300388; 60988461959; 7005760018; 17812728201; 24689889772; 62023052586;
  63987955892; 20812222134; 32601641970; 39478803541; 9074941272; 21846812761; 23811716067; 29706425985; 50337910698; 57215072269;
  19934048429; 27793661653; 28776113306; 31723468265; 44495339754; 54319856284; 63161921161; 65126824467; 68074179426; 6231864261;
  10161670873; 22933542362; 40617672116; 44547478728; 45529930381; 3336648276; 11196261500; 22985681336; 32810197866; 40669811090;
  41652262743; 42634714396; 46564521008; 54424134232; 64248650762; 8301045515; 20090465351; 30897433534; 35809691799; 60370983124;
  65283241389; 10318087795; 14247894407; 16212797713; 21125055978; 23089959284; 27019765896; 33896927467; 50598605568; 17247388340;
  18229839993; 20194743299; 45738486277; 9439914090; 19264430620; 34983657068; 43825721945; 52667786822; 59544948393; 61509851699;
  3597343146; 25211279512; 27176182818; 43877860919; 48790119184; 54684829102; 57632184061; 63526893979; 68439152244; 1684578814;
  21333611874; 40982644934; 68491291218; 2719169441; 4684072747; 13526137624; 16473492583; 28262912419; 32192719031; 47911945479;
  52824203744; 4736211721; 13578276598; 23402793128; 44034277841; 46981632800; 47964084453; 48946536106; 56806149330; 57788600983;
  5770802348; 20507577143; 63735449875; 3858038016; 31366684300; 33331587606; 50033265707; 11769790214; 12752241867; 31418823274;
  40260888151; 61874824517; 12804380841; 13786832494; 33435865554; 47190188696; 48172640349; 6961809897; 14821423121; 16786326427;
  23663487998; 25628391304; 38400262793; 42330069405; 43312521058; 47242327670; 54119489241; 63944005771; 14873562095; 45329563338;
  57118983174; 3136281233; 9030991151; 16890604375; 32609830823; 41451895700; 54223767189; 59136025454; 14977840043; 15960291696;
  21855001614; 35609324756; 49363647898; 58205712775; 7170365793; 8152817446; 10117720752; 43521076954; 5257601461; 14099666338;
  16064569644; 8257095394; 10221998700; 36748193331; 44607806555; 47555161514; 49520064820; 54432323085; 55414774738; 14203944286;
  17151299245; 29923170734; 31888074040; 40730138917; 55466913712; 56449365365; 57431817018; 501760118; 16220986566; 20150793178;
  28010406402; 36852471279; 41764729544; 56501504339; 57483955992; 58466407645; 20202932152; 38869513559; 50658933395; 61465901578;
  2570941372; 15342812861; 36956749227; 38921652533; 58570685593; 59553137246; 17359855141; 48798308037; 49780759690; 54693017955;
  58622824567; 710316014; 2675219320; 8569929238; 12499735850; 20359349074; 24289155686; 40008382134; 46885543705; 64569673459;
  8622068212; 9604519865; 20411488048; 23358843007; 32200907884; 44972779373; 48902585985; 2779497268; 26358336940; 42077563388;
  9708797813; 13638604425; 45077057321; 51954218892; 1901323563; 3866226869; 37269583071; 51023906213; 52006357866; 62813326049;
  20620043944; 26514753862; 33391915433; 40269077004; 47146238575; 3970504817; 13795021347; 24601989530; 58005345732; 5987547097;
  8934902056; 36443548340; 57075033053; 41407945579; 43372848885; 47302655497; 14933889922; 18863696534; 27705761411; 48337246124;
  19898287161; 40529771874; 42494675180; 17003071176; 18967974482; 34687200930; 40581910848; 45494169113; 54336233990; 11160500232;
  29827081639; 31791984945; 6300380941; 8265284247; 23002059042; 37738833837; 49528253673; 50510705326; 56405415244; 9299874874;
  12247229833; 17159488098; 26001552975; 50562844300; 27036143602; 42755370050; 24140927617; 29053185882; 45754863983; 11421195102;
  13386098408; 48754357916; 66438487670; 1648817546; 23262753912; 30139915483; 38981980360; 58631013420; 26262247845; 43946377599;
  47876184211; 52788442476; 57700700741; 59665604047; 4700450453; 12560063677; 13542515330; 20419676901; 23367031860; 24349483513;
  55787936409; 54857623730; 68611946872; 45085246174; 59822020969; 7804222334; 31383062006; 41207578536; 53979450025; 57909256637;
  2944103043; 12768619573; 29470297674; 36347459245; 48136879081; 56978943958; 11838306894; 12820758547; 28539984995; 62925792850;
  64890696156; 67838051115; 19750059092; 45293802070; 15872391454; 17837294760; 51240650962; 57135360880; 11994723816; 15924530428;
  25749046958; 39503370100; 6152152872; 31695895850; 57239638828; 41572551354; 17063399003; 20010753962; 38677335369; 51501345832;
  6360708768; 5430396089; 12307557660; 26061880802; 44728462209; 55535430392; 62412591963; 3517631757; 32991181347; 56570021019;
  62464730937; 65412085896; 1604867425; 23218803791; 59569514952; 60551966605; 66446676523; 32113007642; 39972620866; 43902427478;
  33147598269; 53779082982; 18462962448; 29269930631; 31234833937; 37129543855; 44989157079; 48971102665; 54865812583; 5795368907;
  27409305273; 37233821803; 44110983374; 37285960777; 3934743549; 13759260079; 25548679915; 62881842729; 24618367236; 44267400296;
  46232303602; 49179658561; 50162110214; 51144561867; 52127013520; 55074368479; 28600312822; 29582764475; 38424829352; 42354635964;
  43337087617; 60038765718; 21775290225; 40441871632; 57143549733; 63038259651; 39511558953; 55230785401; 4195438419; 30721633050;
  40546149580; 2282674087; 40598288554; 63194676573; 7247071326; 8229522979; 11176877938; 35738169263; 36720620916; 3369403688;
  13193920218; 65263857827; 20123220763; 21105672416; 25035479028; 30930188946; 38789802170; 44684512088; 59421286883; 9368391554;
  1560917304; 5490723916; 37911628465; 57560661525; 17332282726; 20279637685; 38946219092; 61542607111; 60612294432; 24313722245;
  31190883816; 33155787122; 38068045387; 44945206958; 59681981753; 5699279812; 10611538077; 41067539320; 46962249238; 11646128704;
  2856202801; 35277107350; 48048978839; 57873495369; 66715560246; 22557374835; 26487181447; 53995827731; 56943182690; 36363836951;
  16766942865; 21679201130; 5029662003; 31555856634; 39415469858; 5081800977; 50274577015; 54204383627; 57151738586; 28712779623;
  31712273556; 48413951657; 53326209922; 16045186082; 26852154265; 37659122448; 38641574101; 43553832366; 18114367336; 26956432213;
  28921335519; 52500175191; 54465078497; 65272046680; 37815539370; 38797991023; 46657604247; 61394379042; 2499418836; 6429225448;
  17288332605; 3586148437; 44849117863; 690932452; 4620739064; 38076234240; 48883202423; 14549533542; 23391598419; 65637019498;
  59794448554; 2864391654; 45109812733; 66723749099; 15688402117; 30425176912; 58916274849; 23600154315; 46196542334; 15792680065;
  11915012427; 36476303752; 6072441483; 33581087767; 8089483763; 58194518066; 8193761711; 50439182790; 55403580029; 37771589249;
  55455719003; 1473017062; 27068899014; 28051350667; 57524900257; 9436908234; 13366714846; 33015747906; 33998199559; 59541942537;
  11453950514; 23243370350; 699121305; 26242864283; 27225315936; 55716413873; 59698359459; 65593069377; 42066368679; 24434377899;
  29346636164; 50960572530; 19574258608; 20556710261; 52977614810; 57889873075; 8819429399; 28468462459; 62854270314; 6906665067;
  58976602676; 21695578836; 26659976075; 22782308437; 12079618202; 19939231426; 46465426057; 67096910770; 8201950564; 11149305523;
  41605306766; 31832929210; 63271382106; 62341069427; 3446109221; 22112690628; 42744175341; 45691530300; 50603788565; 54533595177;
  33023936759; 52725108793; 41970279584; 49829892808; 15496223927; 52829386741; 64618806577; 15600501875; 23460115099; 12757424864;
  23564393047; 58932652555; 17773961077; 27598477607; 55107123891; 62036424436; 9036174148; 12965980760; 27702755555; 13018119734;
  48386379242; 68035412302; 14052710361; 17000065320; 61314667653; 58471590642; 62453536228; 43839093795; 52733297646; 9557563888;
  49890220635; 54802478900; 14574100101; 53872166221; 38257217721; 14730517023; 47151421572; 50203054479; 66904732580; 28641257087;
  61062161636; 64991968248; 18868879531; 62096752263; 27763083382; 62148891237; 59253675252; 24920006371; 47516394390; 45603630058;
  49533436670; 22076929360; 48603123991; 7392293539; 7444432513; 66391531693; 21250894629; 827965812; 1810417465; 55897397354;
  2897147066; 34335599962; 21615867447; 32422835630; 10861038238; 32474974604; 46229297746; 47263888373; 44368672388; 43438359709;
  58227273478; 59261864105; 66139025676; 35735163407; 45559679937; 47576722217; 64278400318; 66243303624; 45663957885; 48611312844;
  27049515452; 55540613389; 1557911448; 67382172199; 31135738986; 63556643535; 23328264736; 28240523001; 51819362673; 18468145445;
  24362855363; 33204920240; 8695767889; 20537326699; 47115660304; 43237992666; 2027162214; 43290131640; 49184841558; 61956713047;
  66921110286; 30622538099; 68007839887; 48410945801; 7304393297; 38742846193; 63304137518; 36830081861; 49601953350; 20180542734;
  60461060507; 20441237604; 48932335541; 43194042545; 25562051765; 46193536478; 65842569538; 54209566624; 25822746635; 9225346482;
  14398299617; 48784107472; 42011223849; 42993675502; 46923482114; 18484523151; 3799887330; 19519113778; 42167640771; 25518101644;
  12902647077; 4164860148; 8094666760; 39533119656; 43567204216; 21022955171; 49618331056; 8459639578; 22370379642; 63633349068;
  32403452068; 2051728773; 19735858527; 41349794893; 59086063621; 62033418580; 43418976147; 47348782759; 53347770625; 58312167864;
  61259522823; 62241974476; 25943402289; 31838112207; 3399153244; 40732316058; 23100325278; 8415689457; 50713249510; 5624751420;
  48904763126; 60954877832; 27603660604; 29568563910; 63954371765; 34532961149; 61059155780; 56199036489; 47409110586; 26881903821;
  66284247889; 32054856956; 32106995930; 15457456803; 50825716311; 2737724288; 24403799628; 38158122770; 14631422072; 17630916005;
  2946280184; 22595313244; 23577764897; 28490023162; 46278430864; 29628891737; 50260376450; 64014699592; 47365160465; 51347106051;
  36662470230; 45504535107; 32836941566; 17378409988; 12518290697; 31237011078; 53833399097; 53885538071; 42200396183; 66761687508;
  2954469037; 7866727302; 32428018627; 22655641071; 32532296575; 16865209101; 29845636486; 41687195296; 20177536878; 22246718132;
  41895751192; 11491888923; 51772406696; 14543521830; 5805734901; 55962908178; 23594142603; 11856861741; 4101526465; 18890440234;
  45468773839; 65274223821; 57623166493; 25254400918; 15482023362; 50850282870; 25410817840; 20550698549; 45164128848; 47181171128;
  3022985717; 7987382956; 28671006643; 5196444919; 16003413102; 14142787744; 31826917498; 49719603148; 20298192532; 37052009607;
  57892050216; 1944444969; 9856197167; 16994053608; 58257023034; 55361807049; 9238718332; 39694719575; 47710749721; 49675653027;
  22271284691; 50814521602; 12551046109; 35251712076; 50970938524; 36338441677; 57074204338; 25740029390; 26722481043; 47406104730;
  59195524566; 17984694114; 28895940245; 58369489835; 4438926868; 25070411581; 18349666932; 37016248339; 4647482764; 22331612518;
  40998193925; 40172159194; 60029748150; 52222273900; 62046790430; 1186926918; 15923701713; 25800357217; 2377934467; 5325289426;
  11219999344; 4394976747; 16184396583; 30973310352; 40902104830; 63498492849; 42919147110; 1708316658; 39145757420; 45040467338;
  15619056722; 29425518838; 43179841980; 65776229999; 27512754506; 39615008186; 26121379914; 32172506754; 53942860042; 44222621460;
  40397092796; 65010523095; 37554015785; 47743505133; 57620160637; 28198750021; 48830234734; 19408824118; 18843484257; 46456408489;
  41596289198; 58454384221; 61401739180; 13313747157; 58506523195; 33997370844; 55611307210; 60575704449; 22364367930; 14765449576;
  33484169957; 43360825461; 17869221457; 36587941838; 16060735073; 30849648842; 47655604891; 10635275921; 1949627966; 64826533758;
  6966164179; 23824259202; 52367496113; 1436427079; 15190750221; 68399556405; 8678561468; 41151604991; 40273431286; 60131020242;
  10182402861; 8269638529; 12564417959; 35160805978; 48193372337; 65877502091; 38473133755; 23840636908; 68050961293; 17067753285;
  66242474909; 26996547763; 63347258924; 30978493349; 44837094439; 18363038782; 15572100745; 22553540264; 65781412996; 9938085697;
  47427665433; 65163934161; 19040845444; 1408854664; 57408598885; 11389788116; 15319594728; 60616648714; 15528150624; 15580289598;
  39159129270; 66667775554; 60825204610; 16667019199; 54982633666; 38437372487; 57208231842; 49452896566; 9485212637; 44444549206;
  68023388878; 54373343684; 18074771497; 33846136919; 45687695729; 47704738009; 45896251625; 39384062872; 67927299783; 61362972056;
  60432659377; 58572034019; 17413342541; 46060857400; 7797381907; 18604350090; 972359310; 33445402833; 48182177628; 27759248811;
  23881581173; 17160836524; 8475188569; 33140757842; 40226475309; 19647129570; 62875002302; 58327716855; 12256767112; 26063229228;
  30975487493; 33922842452; 28080271508; 22289839538; 51815528102; 31340460311; 60814009901; 50111319666; 55075716905; 38426177778;
  49285284935; 56579558298; 25245383350; 36052351533; 17437909100; 41068887746; 61700372459; 32278961843; 1927238548; 12734206731;
  18628916649; 4152836724; 29696579702; 42468451191; 45989334864; 12638117636; 49093106745; 29548351633; 62073534130; 39633563033;
  12229194697; 1682921384; 44032620411; 2821789959; 17662842702; 28521949859; 55100283464; 5047388135; 22731517889; 48640233685;
  28060887946; 43832253368; 47970615876; 31425354697; 61881355940; 16740718876; 27651965007; 48283449720; 39493523817; 47353137041;
  62298467732; 13280163030; 30242536001; 22435061751; 37276114494; 65819351405; 6976530173; 64941177700; 5272321737; 46743847059;
  23217146361; 54759877205; 9775657063; 37388581295; 39353484601; 20791181142; 28702933340; 49438696001; 47525931669; 48508383322;
  20069424359; 10505602699; 8801394263; 19660501420; 63149069022; 62531590187; 13461146511; 37039986183; 40300174986; 11139459240;
  28980005916; 48681177950; 51680671883; 2662367181; 51784949831; 1992749372; 51271748944; 46471957480; 25996889689; 41046498328;
  64990310818; 1600204139; 27196086091; 12511450270; 63651075200; 7703469953; 51913794338; 67685159760; 36715957630; 46749030056;
  43132057288; 37341625318; 41375709878; 44635898681; 21109197983; 54616832133; 47330747623; 15944433701; 51416971157; 62588912158;
  30272285557; 7728036512; 3902507848; 63936336629; 3128612091; 9075460983; 64092753551; 26194250876; 26663501642; 1171897638;
  68030749016; 25011432180; 37835442643; 55675989319; 64987304962; 33653130014; 43529785518; 34791998589; 45755383694; 5579143869;
  27714469975; 29783651229; 21150142248; 22393288771; 1813943032; 18515621133; 21462976092; 1970359954; 63969092041; 48510560463;
  51770749266; 46241012166; 32643105946; 2395660599; 28356515369; 67967415333; 48370521247; 67245658550; 61559504528; 57220774977;
  18652654493; 46213439751; 47300169352; 49369350606; 58263554457; 38718799345; 30963464069; 64731793089; 976713592; 31432714835;
  35362521447; 37640258597; 51394581739; 52481311340; 48812199598; 9826967322; 61652587767; 59791962409; 24527980849; 2140148726;
  22771633439; 63008201091; 10990402456; 28830949132; 54226464041; 35820577504; 36959446079; 45079754173; 49165977707; 53408618163;
  12302065659; 42758066902; 15405837540; 59780767700; 17743902517; 3737073358; 61397075894; 49459427989; 31105680426; 53910624341;
  5926910266; 56188361491; 7117917815; 22323943376; 10638801488; 2883466212; 34947586796; 15402831684; 58630704416; 38364192521;
  26731189607; 46380222667; 57343607772; 42250049012; 25652648859; 16914861930; 4351546337; 58490665200; 31242713786; 30677373925;
  10150167160; 23904490302; 26851845261; 43762079258; 7315279002; 30433056761; 28520292429; 35449592974; 26659667071; 5097869679;
  42639588389; 15287359027; 24233701852; 20616729084; 27493890655; 52315876850; 66278755888; 27137106690; 22537682269; 50046328553;
  10130783598; 48550676013; 18146813744; 35883082472; 23267627905; 48298169996; 47419996291; 33048194314; 44011579419; 739756566;
  40976324218; 23605028308; 32551371133; 56130210805; 18901325939; 4216690118; 17092839555; 16214665850; 59442538582; 6546566242;
  9493921201; 35194081101; 38349991956; 1702824657; 44052523684; 59771750132; 58997854375; 31593486039; 21925386431; 24255262555;
  29793188508; 50424673221; 65213586990; 8283530090; 19664026987; 5961842819; 7204989342; 953495459; 37356345594; 53075572042;
  27844662908; 31878747468; 33069755017; 11925069417; 10176910860; 32877576827; 46736177917; 25487214369; 40432545060; 20939928922;
  48448575206; 37954440867; 63967434611; 7037377711; 18983214469; 21000256749; 45204764109; 8236574113; 54211434761; 36892277825;
  61305341081; 63226294266; 453666422; 45698581434; 10851711666; 58322224854; 63234483119; 17223861203; 51826413807; 25404497124;
  21117906547; 55972965168; 60067377555; 46008409422; 7849211877; 54128717516; 40121888357; 40226166305; 62822554324; 45190563544;
  3101559387; 65048152500; 34748568179; 49537481948; 28340657374; 54918990979; 56370693398; 47580767495; 2544408379; 31296201186;
  996616865; 59117681314; 46762921617; 55604986494; 26139625757; 40467477613; 55517086252; 10428588162; 38615041108; 42553036573;
  28076956648; 1863595861; 39196758675; 7862583727; 51246873381; 34701612202; 14122266463; 47690228440; 32023140966; 29232202929;
  65582914090; 39473831251; 28153662181; 37464977824; 48271946007; 27492233225; 25683746841; 42385424942; 23823121483; 57226477685;
  5365095972; 57695728451; 14572133667; 12198307422; 45609852477; 35637107878; 58494190767; 66353803991; 25403668409; 67753367436;
  34662845078; 39575103343; 35697435705; 6432442011; 49199252830; 40513604875; 37983361708; 3962526671; 52154796642; 56241020176;
  38609029396; 29253763632; 8674417893; 58779452196; 64786628915; 4656711039; 64638400846; 54248544455; 6629803198; 45414668431;
  9272513166; 32025318107; 9124285097; 38241050722; 50291165428; 68079573130; 15183600790; 4585188503; 65653607911; 27546549340;
  8009983081; 36553219992; 68408784680; 9983075240; 47324426907; 63147931303; 31248416494; 7008147866; 16832664396; 18075810919;
  47757916405; 58877718432; 63842115671; 24909022369; 61163644435; 10180436427; 59824408817; 18769995287; 31132943837; 47886760912;
  32428229334; 27620249017; 53737520709; 36157668903; 53380736744; 188308266; 7534720603; 36651486228; 4595554497; 46849164429;
  22757123870; 47579110065; 12575823375; 44274971141; 62011239869; 56585780717; 11549421601; 40257264287; 66165980083; 10330841637;
  11782544056; 37178058965; 3826841737; 7034891566; 27205314366; 23431924676; 16659041053; 49340640472; 23127279685; 46706119357;
  23231557633; 57156303575; 46505752314; 19727051666; 4268520088; 5928778403; 6033056351; 65240850401; 22273672539; 5110932525;
  24038208802; 32419211766; 31749593957; 32836323558; 47990210145; 5179449205; 29383956565; 32383450498; 12429772447; 66725308232;
  65899273501; 4526209102; 30330646950; 39589823619; 65707095311; 4490447834; 2012343641; 27608225593; 1290586858; 360274179;
  61532971535; 15462021792; 4967887453; 30928742223; 54559720869; 28137804186; 56637090976; 3540751593; 50289507998; 57792337257;
  60896109138; 25736405526; 48437071493; 68190382501; 39751423538; 13798757621; 21658370845; 19849884461; 32004277115; 2582866499;
  53774630403; 16650023485; 67015752658; 13197656492; 13779374059; 33741240963; 16839195819; 32766978163; 22689955616; 43321440329;
  48927882962; 60821580746; 56326434273; 19201827355; 19931772991; 32920389229; 27182096233; 14105579753; 11523197612; 62767100490;
  11739942361; 65105165467; 30779685439; 17346384994; 30378951353; 7269362447; 47088818307; 66172511506; 8833531667; 36707150769;
  31229552643; 43018972479; 35420054125; 15378475832; 27220034642; 44443102483; 19116104254; 5413920086; 22480571005; 36599866965;
  61786825978; 7455528925; 10314983642; 42170548330; 10375311469; 49673377589; 58054380553; 21138329531; 24815630126; 60183889634;
  12200175559; 4705535153; 43073288594; 65730004440; 42055075673; 65954938042; 8824514099; 62093648110; 52590154277; 66256577177;
  18168585154; 19463870651; 40147494338; 29156536818; 58638275261; 63037332639; 23121787684; 47683079009; 25295246886; 40084160655;
  46985888785; 14573173089; 29466364806; 18198334710; 322026766; 22970553759; 59590148643; 21639506994; 59389781600; 30854733542;
  4641372755; 30289393681; 51390129160; 54389623093; 11551289738; 42448969332; 2228779386; 58280662581; 58445268356; 61914013055;
  25876135738; 12903897206; 63686738171; 42489913597; 66277309165; 33238925781; 34273516408; 17988950099; 57599850063; 62668525250;
  13806637470; 26534558838; 29742608667; 44948634228; 28768345867; 58458640206; 3032424699; 33592703890; 60900983131; 45703146423;
  59561747513; 6926470043; 51918879038; 30156714603; 26331185939; 2447701276; 30381648205; 50030681265; 54429738643; 19791424771;
  16852258665; 28806284276; 6262035231; 5383861526; 47837838501; 7826204451; 13155574508; 51731883845; 15597917433; 52365740386;
  43792559232; 54972689086; 44582832695; 62892630137; 28767517152; 49231390234; 60716165079; 61253932525; 9721762362; 66660008115;
  27265852900; 22874984375; 28003987389; 31107759270; 25690488971; 26672940624; 3771907614; 26019700521; 15264871312; 43755969249;
  9378350247; 26453190019; 20157746015; 23025389585; 60567108295; 61244914957; 18807315688; 1287791709; 35637838296; 2443037990;
  37879814178; 12388210174; 66483378916; 32053620940; 62622088984; 4092101596; 15985799380; 57577980356; 41293414047; 17097095540;
  708251283; 6298316210; 57498268967; 16034932498; 7253195448; 7052828405; 192044540; 32464721020; 46636155954; 60615412698;
  57720196713; 45982915851; 25716403956; 61092852317; 12247342243; 21193685068; 53666728591; 28748653301; 44624296671; 66863900725;
  13976117238; 34042262090; 66940606258; 55420070145; 28276396679; 19398570534; 24266878678; 45211197235; 6129875864; 31272884756;
  13849449872; 33202026794; 48408052355; 57258306085; 47024866616; 9142741647; 18514385117; 21878851868; 37501989221; 50690972502;
  35136351829; 55106407586; 64209167333; 28067012068; 11469611915; 6164808417; 51000800490; 8963935307; 45852413914; 26933326490;
  24323371934; 28461734442; 38546945842; 45380157292; 46414747919; 14671650032; 59038391339; 28382023053; 29806153057; 16068207621;
  14059354194; 3521269734; 54921589534; 55025867482; 4407632292; 46504825302; 45911913026; 48867456838; 53074336026; 53647864740;
  65593701498; 50083030946; 49726246981; 299019340; 23156102229; 17730643077; 19294812297; 4574415208; 32813007128; 55927779031;
  7996203930; 17949564967; 61558788223; 47239125220; 47395542142; 24598787080; 57436803421; 61783721825; 36838074120; 35888377879;
  65142176864; 67263497092; 16999040011; 9043337692; 62112104660; 6164499413; 4937730596; 65396860022; 21957425538; 31537624904;
  13183877341; 10036155339; 7253406155; 41427652258; 14492534688; 10005577068; 37931335144; 57292100919; 19080764400; 55431475561;
  64794930178; 66715883363; 17906134557; 35590264311; 46682493923; 62975249085; 57349422890; 62418098077; 59739626841; 9791009460;
  23770266204; 9466980907; 57867806774; 43399915702; 35704908253; 7178049048; 1151488767; 56706548781; 1897812109; 49480792098;
  39351630577; 15432384646; 10424037286; 31211938921; 45948713716; 9754419477; 9457963339; 28176683720; 15333289695; 1013626692;
  60742810482; 31425677814; 22331106920; 22608179496; 23590631149; 26249718823; 20151636006; 29358673701; 9196439754; 45651428863;
  35522267342; 9569601425; 49613990887; 19374734393; 26572918661; 35631728287; 7148819203; 18068254187; 54122509210; 31221476200;
  42096961063; 19096833102; 58968427936; 13166361916; 45178343526; 28893777217; 32927861777; 60697202931; 38257231834; 15877588564;
  58905094253; 64851943145; 54574553555; 11920209537; 63797968956; 49486494806; 13437422780; 34381741337; 13662356382; 25259598028;
  42995866756; 11257951866; 61351791460; 19314926277; 15766470189; 23538183171; 39786988212; 23614888704; 55939704158; 49913143877;
  66178326624; 4753123251; 10455654979; 58299329838; 52549842133; 1470545030; 52044830099; 65346280181; 39305714022; 27645138693;
  29201119060; 14829317083; 41459789662; 39876236880; 4820811216; 27417199235; 38160833735; 41437400244; 15945796240; 67189699118;
  6936119732; 4197320669; 60205253743; 55542495639; 54411815917; 36058068354; 2105749997; 39038178725; 46184224019; 18351549182;
  10299757768; 22610567344; 67759393261; 708363693; 46759929874; 19050916547; 15222382027; 1187980453; 66427517781; 64555697714;
  60225157016; 4518863077; 61248552934; 51476175378; 46544533551; 31719858514; 23676255953; 24839691087; 27029527995; 42103703193;
  65438225701; 9498809307; 56917183521; 12819325937; 67636251462; 62808887583; 28222712685; 22256480231; 51016461891; 55050546451;
  57067588731; 10749315968; 18320661907; 12703024565; 16901714900; 49399324982; 40265986964; 3182324311; 32957513036; 6230951362;
  63438080838; 3212073867; 30720720151; 60932404230; 33492274626; 21293931851; 59669874145; 25396533091; 63712147558; 34447153864;
  28722232718; 21071175390; 63898314036; 31433459366; 67034841329; 46098711625; 24196507974; 34314474786; 22585382777; 16289938773;
  68035847829; 28128491727; 45925088282; 17903241111; 20076700313; 12389881717; 21228940738; 47354401283; 18113974148; 49637321430;
  44631151211; 51508312782; 56689454770; 17259538287; 49323658871; 6565036905; 36403559313; 58450985177; 30401565591; 6073396721;
  49855414605; 10252703494; 43664248549; 62539385852; 47141182101; 30239136957; 31490472333; 24108298728; 27939010389; 14747021252;
  12979479133; 46692663323; 43901725286; 18486826815; 26563184788; 55644189145; 3008911675; 6534978345; 10890085602; 31946870960;
  39092916254; 27111318228; 51436481242; 774295931; 66735590042; 20203578386; 13386744642; 10941395861; 52401726474; 61669091996;
  42489309702; 30924823468; 44086234334; 24802174092; 60820667847; 742888945; 26503376672; 48037601649; 6931049145; 18050851172;
  5232023706; 11003072114; 8637434722; 64488950874; 66053120094; 5678885054; 56494481431; 64891862101; 51675306405; 58039267089;
  43467098069; 58036261233; 12371228573; 65187489524; 68645039514; 29094467377; 39003878293; 35595461421; 32343461471; 36289645789;
  38704416299; 43737330218; 50578730521; 10731702246; 15964983208; 41297164434; 45591943864; 3873095522; 6897156014; 58716764747;
  18874919469; 47129889095; 16934582722; 66013215251; 24667528580; 48471301854; 63537288199; 60867005816; 62741003024; 51113183107;
  56815714835; 21708150197; 59526941483; 66637225509; 1808788261; 56982497751; 49644274267; 2475400214; 25173060325; 16520167782;
  29505778164; 31278503280; 65180859804; 59683878116; 9534893692; 31779680743; 46176049279; 4504156914; 35690103793; 48670531178;
  24479395668; 25983237061; 50881928789; 46002425936; 59556382035; 29212847593; 64682379193; 40494249539; 16026041453; 11585211095;
  45674562812; 37090186949; 49000262439; 19699507477; 57169703651; 40632631325; 45144155504; 48925734047; 30656880870; 5582388658;
  9352772492; 46180923272; 32047426747; 12466910367; 44335846905; 39544244294; 41234252165; 66212655282; 28956198001; 11019562230;
  31058134667; 25396547204; 14449539805; 20917778437; 47548251016; 55588847721; 18477612653; 19544958692; 58082500905; 45126640079;
  10131542242; 61600378722; 9330074070; 28498661655; 57459010358; 16978125542; 29288935118; 41744966907; 57524521182; 40413920142;
  1938882897; 16741168516; 38615799752; 47457864629; 37517875442; 294173573; 9240516398; 63752796932; 26784606936; 66159378589;
  1847148084; 8625214704; 56979084594; 35112642211; 10213121768; 10385916396; 2169519207; 6642276262; 15750219006; 24312205451;
  58313656926; 20310876303; 67059632708; 13233347689; 37262054565; 28428178541; 43222275307; 62017701221; 21136082319; 13830614247;
  58984623161; 56166112709; 16631918278; 21741537730; 25366699351; 17479513712; 43344279387; 37967953353; 62117315883; 40006556336;
  33142766615; 25003074959; 17346005919; 756794619; 59572043436; 43034971110; 48937869881; 36634420443; 34721656111; 43228497726;
  36428041688; 52761741115; 19912530065; 14319459282; 9656701178; 40173030248; 13506796401; 17935603335; 53212956745; 61967121380;
  65644421975; 47949097512; 24880452871; 2605087549; 60895940770; 3128654430; 20167732934; 19723048727; 29146831171; 56463299265;
  40491566800; 644538525; 9692153442; 52058230175; 21494945128; 2106606938; 52315919189; 17915910769; 53253592006; 20667252967;
  57443264773; 22340883132; 54056408604; 19266860807; 34645680996; 7309829340; 53257117573; 31182119294; 17740629996; 53273495279;
  12292781426; 30020032586; 43156048178; 6890231403; 36572336889; 25669279611; 10315025981; 62557758218; 32258173897; 29327196644;
  24587733007; 52109751141; 53004302552; 47968382777; 34573020741; 27544625245; 50843386485; 9119355146; 18114831089; 52917750736;
  54563808486; 24069040119; 45589064531; 59099070509; 13870533203; 11754395972; 52605436603; 53464226746; 6391441788; 2403484490;
  63444331483; 4842821559; 29222300688; 56009190189; 34801170906; 18516604597; 51206392869; 29009910221; 7159845544; 62423632417;
  40158633089; 18031495836; 29003069794; 15125085142; 34469473211; 2591519105; 52207919080; 43017259091; 44298344023; 50058197722;
  58392244709; 39895452074; 56550174198; 50677024983; 39688244604; 25321625624; 50629240291; 52486859793; 40779328487; 17655539016;
  61821913280; 12383490930; 1661417133; 9240951925; 25928429461; 62223995792; 16888174682; 58197271370; 46028678151; 39642328049;
  35781038117; 10454039888; 24028727975; 60091171851; 29703687288; 28806130021; 45007979085; 53306264804; 68093521143; 23663446153;
  48065314700; 51992115456; 60776029647; 25766731245; 66220043646; 14440550463; 37454050274; 37923301040; 39182825269; 8932374066;
  4409655178; 49876497936; 16637747509; 4200270567; 10416003182; 53415936456; 28791311448; 43950381032; 35958917445; 65336377940;
  8666187195; 4091329333; 56880017869; 22781648584; 11529996194; 60273405461; 31999052273; 13469504226; 55228468118; 34467310183;
  37804204519; 60221786198; 20835819836; 49441561715; 39670532585; 32930404374; 26960337349; 28636973370; 35656351298; 61381077757;
  57969655029; 45098688589; 55148138721; 4743642424; 46398328368; 26364938928; 15554964889; 37294739906; 32788398724; 4442523000;
  57884451639; 64758607354; 24294100244; 31288911613; 8132366730; 22662762770; 6177829418; 36855758407; 16978785889; 63699969879;
  24588070237; 60002457007; 7424501508; 21227957768; 8238512815; 48175618473; 65633157195; 19188217066; 2848505927; 33902602443;
  20008240085; 30005551243; 33111500265; 33766917509; 17182889206; 5574452851; 41051344589; 2460834687; 6719852849; 59796808670;
  15777833760; 18071948616; 19240566747; 18952299462; 65810516812; 66139728362; 41375064138; 49154965973; 63973629298; 55948581584;
  39112047264; 34077475915; 26239423394; 13862274279; 53810574646; 24795081113; 38573142099; 8928975022; 62137781206; 61657335731;
  30764010419; 42193640434; 28551784093; 62999268201; 9880539400; 39871644159; 51423278254; 66737936045; 42601116650; 42861811520;
  8528142639; 11291508261; 55125665119; 20259411789; 9413676482; 64580545545; 50622020789; 41205598483; 61954732994; 20348351453;
  7096034489; 2548749042; 29873405989; 33182727910; 26217666097; 22059920027; 57326078728; 29486563464; 44082470328; 58852000535;
  64919505081; 628835279; 43870079861; 23734589614; 20712706263; 57409006680; 11108460049; 38150032708; 50918069626; 32268385636;
  49543592451; 65139157389; 38233789375; 35016721978; 2364872115; 6744545931; 6878573435; 19134238181; 50154750570; 44001522923;
  15636263637; 43570210566; 46214268960; 60002695940; 9677911032; 17401839322; 2305274706; 58880724782; 3950503741; 23055757643;
  33867908823; 11500808688; 7672274168; 46506272519; 57218500033; 3915781895; 22603924005; 37337692944; 29875807950; 61163026921;
  48303255190; 21446191579; 16802817037; 46149699261; 46418582984; 51527373721; 14204576901; 24796977476; 66876655061; 26587119720;
  54769738095; 59289451127; 6680917357; 31235368255; 61550501567; 37968656039; 34433571801; 32388957106; 45166011592; 33310252217;
  41476687573; 45255260260; 1269869477; 16124294070; 13560466776; 15497797667; 37369423047; 66054047600; 6538602703; 10789432012;
  18272877709; 41826322107; 32182789058; 39405539885; 26962879946; 44506970484; 34915576409; 48398009972; 39127638594; 24123328502;
  37121482019; 17488826665; 25147244131; 24403617641; 4671867336; 66346570870; 34210099035; 60420453966; 64495482791; 58660271985;
  64400742122; 62597438735; 53006044660; 57565873242; 17347860437; 14655188636; 23021991035; 51979333882; 22461005456; 35948622016;
  13288900314; 64661647699; 13491444498; 36378276943; 12395697329; 61986702030; 47362394036; 44692111653; 30366436938; 14968233187;
  28700166911; 18307304664; 28425271476; 3501184474; 41530708797; 54933430971; 52836677302; 3836927447; 58557763877; 62755625497;
  53459858845; 12695889741; 40445847333; 8372709181; 17817223613; 44415460491; 44054841955; 35711777400; 23633261564; 16776831981;
  32172029876; 45838452776; 57361166030; 18853373373; 37996565684; 57381898018; 52189561321; 43586321607; 47422216265; 63723160280;
  65135266860; 61567427210; 3000849839; 53808257363; 37175095942; 54891152393; 1132555339; 35877324300; 19591929276; 64024181407;
  58804272295; 43526724198; 60497286022; 56959195928; 27138399652; 39500519487; 29944886680; 3843992694; 29567890438; 42835756393;
  41289004301; 11806437143; 39737378216; 14739591537; 37305401285; 14743945819; 53971009114; 35588860421; 67465985812; 58000950099;
  57183104221; 59590205589; 24880369181; 32032945898; 52168127141; 10512612482; 20570251467; 60631018635; 67472418938; 36763911678;
  24834452626; 6641476267; 36501559378; 63079892983; 43106831370; 8029016288; 46152452565; 39054711674; 58808022682; 23263962690;
  45817749014; 41884936546; 13670911185; 17380138477; 30936791428; 46035533185; 15274886951; 31408219335; 67968834818; 37926110796;
  47879471833; 49533718436; 27592747661; 22465093073; 51512513303; 61350921394; 22177865210; 753101178; 51127019204; 55301662691;
  16233713170; 46092967566; 22834321876; 6530372005; 58408131424; 19179101695; 16253307439; 7383670147; 58731850973; 51341488515;
  35059099347; 56340818307; 32095886393; 47666884772; 57186756311; 5850289905; 35569505085; 17344602029; 8418162477; 22388401653;
  27353838314; 1383965976; 63046646086; 47883741931; 28211490738; 59275124533; 54949766832; 58992040245; 36615922542; 57928739484;
  27818327497; 8746348718; 25810513492; 40959736793; 45288311057; 40799696007; 33617889445; 5496947323; 6654061741; 1189835465;
  53835169925; 47879823176; 26165134429; 51847778904; 67624327323; 46920491359; 58602318387; 29249424451; 64262248420; 59140605544;
  36524833963; 20048609175; 29088035239; 49457996367; 27096907944; 38037903631; 28133675712; 67999258834; 60873945528; 24124677422;
  30080234878; 16081594572; 19322399813; 45403081522; 58128516745; 10578292168; 12543195474; 30335648454; 55912146844; 54767266557;
  28237237355; 15406077461; 12649243262; 10390060959; 62536704101; 63584666578; 30205876935; 21898573648; 56703670436; 40251492496;
  14026627996; 184404612; 26405954252; 11868717785; 17011612360; 23162353862; 50371538152; 61007060133; 4978914782; 743634464;
  20861918290; 45840321407; 64758580116; 28302762292; 6332561672; 11967925146; 44819313337; 13782942953; 30469802481; 36220638612;
  35091307316; 3995437820; 60434374247; 17965367992; 36024836558; 62515269921; 22104460918; 40416435501; 58555615456; 44865974423;
  21304551879; 36683891779; 13875113293; 26525191409; 25363104701; 6477292400; 66502103613; 34723244458; 35611784157; 8288475636;
  35564519176; 64727412063; 41463583376; 2192780667; 53877533181; 12161381691; 11069988804; 2265033621; 68048041103; 65712153267;
  54704509037; 41285100153; 13997552900; 36785290394; 42442214571; 66194368582; 1442636867; 28735886828; 36392127153; 37394482079;
  2756378914; 67437107804; 43335220962; 6299862712; 50088412019; 1686448433; 49288502980; 21688121883; 50460646678; 64445086419;
  54957141577; 43701654616; 19650558322; 4612664103; 22508566316; 17378734587; 66813322366; 59835099410; 22364074521; 33897982484;
  60428222393; 67826773704; 29038902615; 58312085162; 464778429; 27880552181; 48777914761; 24610517095; 41723814987; 49385238309;
  65726297874; 39474689674; 44034518256; 3580377140; 26975747186; 11371164680; 15401414669; 48576002698; 398453003; 53959899577;
  11973515938; 1202000019; 62868514700; 22657862033; 2555955913; 25872443285; 55429229831; 39115433677; 23628500969; 4726310962;
  40080369905; 29282011989; 65549177190; 3584548941; 60550886820; 58193957992; 2802366034; 54783574686; 68546086681; 38240490648;
  67068160273; 19191420998; 1113917296; 8144489933; 43193903885; 59540666158; 31575312243; 43380281070; 59322783690; 43058120654;
  6200740029; 45226087855; 60886025898; 44088258702; 10284688125; 4896029663; 28126175926; 62864933175; 47273413515; 49611478492;
  40401954652; 41021610628; 31316921037; 48443590779; 38616068393; 30291558685; 54638802113; 43927094310; 59363236470; 47945320875;
  50759687752; 19314394429; 38116042762; 44208633578; 21081009536; 62592650408; 57922223162; 44447149737; 5933345368; 42637834638;
  27092751244; 22960302151; 58297983388; 54154128879; 40183580699; 16809462352; 58342663927; 9212622842; 42975670568; 21673739331;
  63329773701; 1589152042; 11087673585; 20490106033; 52256941764; 31111427449; 40217403759; 57426271035; 38795141892; 45753363278;
  44311928556; 11823546749; 51389667877; 32440002182; 7476319341; 20963935901; 26228005841; 42084265649; 65590445066; 15658205391;
  65363854034; 59233015805; 8616129041; 1479621026; 63746408121; 10320028473; 2849954626; 173660531; 64073133526; 10676503434;
  5831315126; 67286998473; 28215214381; 44828992240; 17933161505; 65343248569; 59377016115; 64803205685; 55474683621; 37379973498;
  45424095770; 6831310430; 16594052410; 38137505662; 1598970593; 24904263256; 18215656011; 44659133397; 52263234748; 57583587237;
  17022991032; 2107929608; 62462781086; 13590218308; 45502276252; 19787087072; 67270972110; 56562270163; 5542472172; 31306485466;
  38202412591; 2840684506; 34393472340; 62328978402; 43934497281; 59649060443; 43254204474; 49061014150; 63826709786; 57332247165;
  19204147602; 19194301319; 49758625788; 60723050315; 45543768454; 31371504805; 1248240679; 57082761117; 58207850541; 7578420642;
  32578286165; 56994256980; 53434606183; 52237277918; 3319416593; 13440908972; 49389748328; 46747558071; 10171084593; 8626818646;
  31395692289; 6539812963; 40758219894; 5353370403; 6230715393; 16476697997; 19117441531; 3587387417; 10098438451; 25416003801;
  20075439035; 9196948316; 4713516263; 12747272541; 37175575784; 34610919775; 7492543286; 65545610766; 17890279526; 41491199612;
  15648514351; 58803207117; 15780266417; 55813980881; 18569238020; 21272697229; 37216548275; 13687572139; 61174154029; 62131210408;
  10125954908; 51792369385; 9537102023; 53661703307; 26961885333; 28527093975; 36622737213; 20238766949; 38332550060; 64110763919;
  33561272136; 66279152534; 22093085704; 37483831020; 4959996949; 2103239084; 35591489672; 40141471971; 42700326975; 2817537432;
  23408597591; 58965720429; 20407965939; 66415581999; 48210273212; 4340046082; 19452890107; 32496861882; 53524937106; 20951969917;
  47289722632; 45239096225; 31413770258; 32121846187; 718325844; 53096125007; 10177251548; 36359725060; 53272136198; 5057476809;
  68624732398; 39490971059; 57369456144; 16385736435; 39407635806; 43203934625; 57792284757; 46243867225; 43677034075; 36729909101;
  30757664935; 64090847027; 40337246293; 9254439643; 39238184264; 66995712701; 16647709660; 13271121188; 17927460279; 67273838812;
  39093917289; 45130014849; 17133366358; 60000620554; 51067761989; 17312804819; 50735755290; 39034755407; 4736019079; 53101083678;
  41473783472; 1497081975; 416574793; 45000580560; 40406858847; 9251181235; 47573228828; 32179379359; 36786163918; 19852711788;
  48371283843; 66850870057; 41801674822; 19078619437; 62076066566; 4718742587; 2332892918; 26691331055; 31670448570; 27096630130;
  32172370564; 128883671; 60143848601; 32841482775; 4681464525; 22894035153; 42742817248; 12061475102; 63719385619; 27502603665;
  13227944318; 30595616364; 11228122572; 31379681521; 47662590400; 13715665747; 40071453598; 42471616242; 53617543961; 56700794561;
  51900385089; 9410028838; 16774167307; 67367526934; 17866290612; 51194289707; 59633963068; 28228476291; 28014428394; 51766582405;
  34518020993; 63691799585; 67606267913; 44648545053; 12375770276; 42507644669; 63886492146; 48455223979; 31547799244; 57022196827;
  42717464807; 8916900086; 21801238376; 36689766807; 29579075480; 44693366228; 10669525335; 64722822800; 10004065214; 3680220080;
  33680553114; 21919225404; 60730005622; 20633168182; 13537815139; 66783632720; 3976283030; 55710997377; 12278614027; 52792254255;
  29909776092; 24135005523; 4140074203; 42621642871; 12017624266; 23766619548; 3219200506; 35267463095; 48152012092; 22580696699;
  68101855572; 55649869061; 19584953153; 9352567219; 41660386959; 12883929296; 54225472392; 29167259589; 38846244902; 47698268472;
  723749750; 41056097493; 50384942674; 14000338382; 65860891380; 66977693654; 64695812929; 64755213744; 53402190965; 31444533480;
  18422333115; 47194759613; 28052087013; 38757586510; 60228477804; 35185083574; 40780654615; 58464686072; 37370173012; 610131611;
  22026608493; 57123189129; 52270022675; 46898879638; 33005865706; 46479281701; 46141783001; 64243024547; 49186996895; 28512910487;
  59587738991; 65457264342; 11449377834; 18156034328; 15721051541; 12038778656; 41569860924; 33179840392; 53019394212; 50897245269;
  54522406890; 26743219453; 65703267162; 62517297747; 52121640351; 27986689093; 44707132748; 10459299378; 29313086685; 13499035384;
  44098292406; 32643379527; 52295839857; 40763491027; 36217245002; 62603400417; 45004600576; 50356051047; 24038103308; 3667945586;
  5956568441; 63741384319; 40897673280; 27376163589; 11478032504; 38190084609; 31103538427; 63438832285; 6420566139; 1647939789;
  62497957018; 16731034258; 48081699322; 50777067975; 54048142483; 20654450083; 5332024853; 61237857120; 2879526641; 67801566839;
  5046061232; 58547179979; 40237073533; 9553652543; 59471691653; 15967785767; 923191757; 19952470544; 67107986860; 28052271470;
  15517048003; 14103803704; 19359586494; 13203043987; 1725011272; 9978841272; 39692044740; 12500502398; 21210309611; 35217883301;
  48655538028; 18224623055; 24377541698; 53089738666; 62782615540; 61178443180; 67150701459; 24739536886; 63124735681; 50489897552;
  47832888722; 60158123683; 22829525858; 15783614937; 68423246689; 3833536307; 43281080625; 37623847444; 33588105454; 30659825053;
  52299367400; 58088788174; 21836666366; 30292408429; 44700393088; 67506896136; 23694299981; 38702655351; 14716241166; 466134265;
  29126304669; 7394409501; 63620871277; 48018676619; 55331406532; 10595029121; 23022673893; 7580211017; 10399142883; 57962332009;
  4503618363; 42580829081; 24464249251; 41287524131; 28659119128; 38967016918; 18166473851; 33364942680; 38666122314; 11686745619;
  19323195081; 9083238302; 58147670266; 14991839781; 54778231225; 27415748279; 3727672482; 31236009762; 37923493401; 26224684772;
  27744903871; 17185680122; 1562753476; 64369485158; 51873548526; 46068606987; 58301278420; 43594379704; 18682835837; 62963854043;
  48070465732; 40550121048; 45892455654; 53636806928; 67192940168; 14767061422; 58136953917; 4058275291; 39671175080; 60467476275;
  18241860172; 64885200910; 55471068155; 21287706187; 58183235928; 60718465498; 25788049770; 5047525526; 29261570165; 49218984490;
  36655570600; 53645206982; 21241410557; 39583654407; 35435038315; 34029982869; 24663522396; 5554335626; 49979255845; 64728995189;
  58116054055; 34358309746; 68299433394; 19673786335; 31076616692; 48655330779; 5592063822; 51087420120; 31893128257; 11383549327;
  35145577847; 9477976765; 17155988500; 58429141439; 18097833118; 62606172774; 54415184972; 53344215069; 42368806540; 40630395969;
  16821650405; 27889313458; 59148033002; 50635699386; 52419535027; 31402865219; 17198365869; 28067431719; 33472369590; 53174482749;
  8146017595; 5937120242; 28452898086; 63826972712; 26365822332; 53242592622; 7559215822; 25640146794; 53446499345; 23155834295;
  2529546692; 34261140866; 30570679128; 21593968739; 42704761208; 21536548471; 1150631051; 14084116572; 60542849965; 26821589332;
  27117216755; 8712060636; 18582198830; 3587440130; 45288464043; 22473673845; 8910292877; 35636236543; 4668186245; 43977770191;
  3906440435; 699739032; 13193301929; 37821185839; 63283770705; 23059338887; 5539843134; 32775265526; 56553657639; 49716513321;
  36928896247; 54650767816; 51578206327; 49129865803; 45332120261; 57455752163; 67569266396; 38835326244; 34548131772; 43212120727;
  44661365227; 26424860161; 32335891827; 41257050085; 10222028127; 19676922666; 34456818867; 20339082040; 37891881142; 27366339817;
  56607090069; 12721313948; 7858610215; 46804569769; 10557532661; 48454813433; 8101228104; 30023040137; 47108667317; 4184653200;
  66621229067; 38771769223; 26326103428; 64521385358; 23245788613; 4384135570; 1982736910; 30059939618; 27068845245; 7381466475;
  22843214616; 636365974; 38244634930; 46594343318; 37722852002; 42476221313; 61493265969; 20192372247; 35091168375; 39423071612;
  10968465361; 66860223586; 45840983449; 2174241628; 39596779633; 55426408151; 17529773613; 64265902699; 19287904976; 2073672222;
  37438827577; 13842065179; 13680493486; 31996625757; 68494637975; 58000714343; 66136894545; 66052955397; 41841411016; 30377368159;
  28434966681; 39073396221; 41725657581; 56329247700; 31228531499; 22373516186; 17214693545; 7995534129; 62431980184; 33864078417;
  48076668323; 60347882060; 48783395826; 16984015390; 7766415107; 33861002490; 18219731704; 23260736179; 20632240889; 30491198487;
  6539000550; 30769844309; 61126048409; 61540154345; 49773334634; 49685448505; 1969705254; 27513251638; 43561212264; 34572689158;
  38793586430; 38946197007; 21425647719; 2396270635; 2639787310; 35359325138; 7306070981; 29611185859; 65402161570; 44809767098;
  51510819181; 43778814448; 20135629897; 49334284052; 66751005032; 50422081301; 68499613229; 62224901213; 61906491184; 35337105076;
  56154559673; 3489251869; 22004838284; 37290926577; 32710604940; 15260243875; 34416204141; 54484891590; 29205172455; 31424492254;
  19150174364; 50213204264; 61006702300; 66815604933; 45264819769; 13085338938; 41074641404; 19157928184; 33887455251; 25349417357;
  43268762523; 36074005525; 24566799417; 36333127643; 41818619731; 55750513197; 66837981226; 15424514396; 58496630553; 1422517385;
  55497825193; 16955212393; 10743946470; 6888528108; 33983714690; 9646809524; 23207816757; 10955186093; 56409598126; 7071956383;
  8371526091; 18772437049; 65895717664; 12067887625; 23782470065; 59295783418; 48048710130; 11270956710; 68483381593; 18659268550;
  39956438204; 2412444056; 52098554882; 54612322046; 19725786368; 41347096985; 9425417578; 34402739428; 30178260631; 9087708665;
  40838686401; 58304624683; 2240324876; 67739250987; 24979084001; 35650704480; 6406358590; 57263418943; 41106096163; 21770107654;
  45058938427; 31718342146; 48761985639; 49269596228; 54884031120; 43875558175; 44779337861; 68138342744; 9345511571; 46173283276;
  49623374831; 3333194194; 9750909437; 11353157702; 4331209445; 2606297247; 59225697444; 37669321982; 56301181543; 1633074363;
  30469972263; 58166653162; 6126984820; 66164353281; 62232481938; 51986836564; 538058106; 35273402198; 63774065640; 10168781355;
  39769981775; 44580251643; 3473502545; 6756712887; 35002580761; 9177017737; 65378084239; 3664838401; 57229066505; 38591827353;
  36053606040; 4115843818; 64551656814; 28271751884; 20964949499; 8618083764; 43569681120; 65891819938; 15774874621; 11851192131;
  7071262589; 42103161116; 56804006275; 4750769489; 9828195579; 56695753614; 25188292553; 44408148552; 17814687370; 4555530473;
  53343114681; 14382673784; 66183109662; 31693670093; 4918705719; 45298332556; 62389550034; 14397970223; 61160210888; 7327197852;
  7963582877; 10875738618; 3736646161; 43880411846; 62787489959; 21111777136; 63435378697; 39006260852; 17927816494; 59507665042;
  32157641047; 43424941219; 50326262048; 15611270869; 36019170406; 21151795377; 36167215994; 2667363396; 43507237544; 64841769938;
  55746398555; 26530032381; 59834729159; 30837706289; 65511922065; 59997635659; 22118334065; 13053611518; 24792578036; 19753666518;
  25782727057; 448818330; 19951716278; 56219036228; 25969484305; 25467379830; 28771252089; 39688004334; 38793565333; 26284579968;
  8093415788; 6261093757; 27105811765; 50386987509; 48907923382; 66795173483; 10170491992; 22434598637; 36039710740; 7573502479;
  32082823692; 24903770434; 26682408965; 38475719824; 11145163575; 717790189; 2593374756; 44192845799; 41462446296; 10238673418;
  44643977245; 67256574602; 40630470418; 37340644469; 55741980130; 65160270573; 1907955898; 8236183540; 1211679067; 24051261138;
  17680881441; 58805075893; 37508468289; 67453038485; 39090686758; 60734892391; 13794210842; 38374731474; 30744996410; 38400646953;
  14296920200; 14147737387; 24235252451; 9307353001; 19781275063; 38605594086; 2866673165; 5986836865; 48526986581; 37074700977;
  57608551575; 35619178100; 35200956815; 45068412270; 48027538101; 50417616023; 36297267022; 41919890767; 19482644748; 33102757905;
  5593282906; 78167785; 6394400229; 32102581108; 17676716062; 60068792458; 37287614613; 64380104343; 3910412329; 27999180861;
  50829506431; 12543023512; 2225940280; 54299094452; 49174909473; 60616268515; 6601555693; 46813023950; 11510275266; 8780128809;
  45997200958; 9654791060; 32780631643; 3558253757; 68085374987; 62884034835; 6740683986; 12030050903; 17086829189; 19438715656;
  57373948950; 41919715696; 53495087635; 33698402669; 18840396551; 39702756507; 10073450342; 34167078260; 53047440899; 54928124279;
  67869982122; 46120838688; 513338706; 14801440468; 50373213511; 36265126373; 40525774233; 22279493449; 63709597134; 11241299668;
  53557105564; 30349798359; 45026765038; 28339821326; 38188497114; 45357971248; 48230306330; 41399103653; 48319386630; 64960175348;
  63544683837; 66977358264; 56583779712; 51807529498; 19108752378; 29116963354; 53145262929; 8189795260; 41119532795; 63055671916;
  24948094128; 20864835099; 27794655355; 22580028525; 24805135216; 44137837585; 8802024485; 49431390416; 26011285443; 5782402953;
  63488294312; 13202824465; 18496166589; 49500428289; 64929997181; 8046278250; 15974689426; 34693536330; 17811366727; 9616361873;
  4927633320; 11172722797; 46850038030; 36732436674; 21572608940; 37590244341; 50588468423; 48512769859; 64421814875; 43829968340;
  20258390509; 58755185545; 27156284562; 49554398495; 52385297827; 26364846142; 1939914211; 26754863385; 44108798619; 30887593750;
  3936731089; 48017185658; 28770375746; 44861120548; 62655793008; 39929339073; 5223140642; 556772787; 44786888529; 59917290318;
  31358111722; 7640343315; 57129051603; 13672733815; 48342539351; 27188949087; 18995362730; 61690468532; 19873845933; 7656555123;
  49389309633; 35846155055; 27083436605; 22508691153; 15658905403; 50226750274; 24258774299; 19240763631; 38574589112; 59738237354;
  55299387543; 43731516378; 10009005616; 15043914195; 29754886415; 31610933165; 68405401521; 7274800262; 11775228523; 50910697641;
  20290736857; 31210382548; 35601686600; 33258649333; 51292315324; 13284141491; 58548271697; 64844152216; 27534476176; 35935172200;
  21523521832; 28979607303; 35850743543; 9427899848; 59142328608; 8443764021; 21983800827; 67966443027; 65883581413; 51508155572;
  46873489594; 1253474703; 67731860724; 61330172338; 63799610306; 16593022664; 11604270067; 40274820578; 31160108466; 2086604883;
  53975067526; 9186087882; 2689054932; 40108531123; 54098013719; 43958655066; 40553272276; 35973414392; 3253061962; 30752283377;
  27786949734; 55895685951; 23486425751; 1693093263; 66589120179; 22831107298; 63074768423; 60609221478; 47446996010; 25962789318;
  61678071680; 22759151211; 53945969144; 47449709939; 52991161459; 2166912970; 58397547535; 44342737090; 35352122015; 19124751648;
  67419066468; 32493833737; 21388063907; 59615680329; 52271964844; 61515943865; 53009159196; 15088562488; 32751595786; 39411099709;
  13024031395; 29257540491; 27538991348; 10298929275; 36576972665; 64491957940; 39922084574; 3174474392; 60714453395; 13061159154;
  64223919021; 25729245662; 60972383318; 12278317876; 62267795832; 54023490974; 400677645; 48065841549; 15687568403; 28042904263;
  47945244817; 36190251936; 14085574666; 55469481018; 25926391415; 19241422147; 28933444056; 55038482111; 12297207696; 25023921274;
  48646865816; 24330552002; 29462533634; 17037952158; 41462519621; 54973593247; 33211275051; 14974671688; 26625963278; 43333470610;
  18822394658; 1553664790; 4921432782; 57564702511; 7952979935; 66398171728; 52583324165; 42391784693; 23228661377; 42754595471;
  56521616991; 15549514393; 34030168255; 30712208829; 26482730504; 9770419744; 22741689913; 6167087961; 6626829674; 67181880321;
  57510677054; 35912388964; 475683835; 33085116460; 7088922330; 62830022793; 13781323289; 40077738551; 31014055426; 23971628721;
  43836704338; 27422227356; 60306568047; 66415804222; 65696140396; 42143202090; 30730581902; 11534380057; 45520072822; 50494415135;
  1442456235; 24635999390; 45019248678; 5474379249; 49282958846; 1789355036; 57512476321; 28190104698; 52204948239; 52584037438;
  21886570632; 42045939359; 12594499397; 15153130569; 51962122607; 24506262519; 8098611851; 65252619383; 8047330312; 35146070687;
  7967886082; 38844876027; 8047162438; 14454047934; 42632410818; 51097732993; 1473217200; 26513072244; 3844403539; 24378352434;
  24936530233; 2605220580; 12756209963; 17774867359; 50830232838; 25556651938; 53919385210; 10468531691; 9927941364; 26282724616;
  61720372352; 34054382134; 51298196570; 58106799616; 6656532590; 41063943981; 3832390489; 64706187901; 21111559880; 53105676204;
  17558091633; 66425373611; 16540244662; 31295813237; 39681789479; 39560404889; 37312853316; 64981527755; 23016284887; 13323675666;
  39551181060; 27058573401; 48057265019; 52802866891; 44106151244; 41971965258; 47219657492; 56505845514; 41614297608; 43171179231;
  66619405544; 40634995905; 16183685730; 8467821746; 57060826791; 41538414581; 4962292940; 46442443136; 19558902984; 32243618762;
  10086352878; 59104252255; 40621169688; 16565340037; 54613729693; 31877541391; 6810522221; 20141652776; 54258900519; 3759482554;
  35514224790; 40514088406; 68213047213; 26404262124; 57680583747; 43173223359; 63734718419; 41513121769; 11797728035; 45785414472;
  23450606984; 51852667454; 44573818535; 14734411454; 35603009424; 41122395631; 9602602142; 62304263466; 846954373; 25911937532;
  50434097759; 25496485146; 46843954851; 53287851744; 43277492347; 22307962973; 13429954347; 8584514475; 43047226433; 52881547401;
  66282430652; 67048770171; 31856199231; 50863383985; 66273176127; 39714018341; 54093210658; 30879007562; 48881422304; 33017241296;
  38087125261; 62205502713; 3912051925; 48707072989; 43804590936; 40752564841; 20940724566; 19489064980; 6121472447; 66644063067;
  48263193223; 32628159957; 46566107474; 31377247477; 11849995159; 42634800651; 15082541970; 18976560076; 16939193603; 57195357500;
  11822526475; 3359484678; 35781696796; 43617334231; 64819763216; 45744456946; 26205209430; 11326668412; 64307127837; 60104855977;
  27132268147; 53726095279; 50488015610; 36339785190; 1730800448; 31548942211; 37705569396; 15499255072; 50402042427; 66755043208;
  61131760598; 43121566774; 66995390599; 59734759297; 52565552322; 55322119856; 2622076587; 62254483697; 14183223193; 64655986088;
  19808001287; 7401932813; 59229309973; 58647290318; 41928968834; 64566358558; 44522561773; 9572006309; 29909675778; 17966142684;
  24281814066; 60156589277; 52283790142; 63561090852; 44509929233; 1247306923; 51383987145; 57902230937; 32903757167; 37177904882;
  46423206573; 32312340869; 36780589387; 50834600825; 18217614432; 6429923579; 55676252417; 20657164184; 45492944631; 48256173569;
  51718752795; 8943023693; 63739681477; 5130614821; 36064521412; 65240887410; 18652663770; 54189704806; 28039131247; 26308883773;
  67066831498; 35515645136; 67404669404; 5256501458; 66375881758; 51672144635; 35611613142; 42098168182; 13739006768; 50349739821;
  39760487220; 39789227556; 3097253689; 2006408739; 18010240715; 22534705169; 32252303351; 67336781813; 1407094246; 35814963181;
  32068739099; 7270632372; 17941002722; 58457778787; 48477786954; 36980428611; 16495152539; 19667146209; 55371710740; 42526153687;
  67128347432; 60858202381; 61347021660; 30177691914; 52335744668; 42251953741; 17474367307; 24446031108; 17003403647; 39038778849;
  61128361214; 11531179891; 31245781215; 57547507479; 38823243585; 55599056890; 62848627416; 31576760842; 42067018765; 34670139985;
  57400112784; 22326034470; 564712863; 21827919315; 2733523386; 35550584401; 53289395726; 15719657431; 1041741442; 15342614617;
  36424062080; 22099190818; 39844648940; 43508327109; 18054523348; 33512918736; 64856140466; 66775171532; 3430771195; 16165969505;
  6706722166; 2221844872; 42822458824; 54440657278; 40628144075; 54761528684; 14412242173; 4348128217; 35319256912; 66064200888;
  51235467942; 25151487462; 46469193498; 2486852392; 35824573223; 29178218306; 27552815770; 42042017463; 5876170151; 44882585537;
  34852277283; 56856194481; 61944366134; 3290580058; 28437287825; 29604772683; 22166415320; 5696652378; 36238617137; 15697309092;
  28461007323; 3995032830; 33753243412; 9163472207; 43103458630; 21322404588; 32313404941; 8629403142; 16974773831; 64075193090;
  47673989167; 35558574344; 45446972494; 28044627363; 20070443726; 45729886157; 32611695982; 9561818871; 66225226135; 30354303066;
  9326215211; 49446889286; 50199213191; 12824053565; 34590137743; 31301592125; 26061546735; 36938197756; 29279755028; 3900435838;
  14200103424; 58845857491; 19877821969; 60999671406; 15964086529; 1788046737; 8015677241; 53989414777; 35312783790; 45000618797;
  42814083130; 14690026200; 27340695580; 62844261935; 45305020622; 66052203306; 20481771667; 57040047075; 34435486292; 59171035057;
  34272259145; 58550776174; 17220323775; 38142647584; 5086910934; 21089524959; 58239993374; 59206218331; 26076507929; 3252226249;
  28384181068; 17044980273; 39128787389; 51409848397; 1479001463; 51671080549; 31698220470; 26407393211; 35154732026; 40256922257;
  12521095653; 53966962988; 53784058870; 1632415706; 28231624405; 18197924798; 54842465810; 723489153; 56264828444; 58221144982;
  2406682566; 5803457065; 49728970155; 50777748222; 22462788493; 17958835653; 25496800975; 31746105086; 37419856609; 22586534400;
  59550612505; 6795312984; 34046723846; 48599121550; 8653997877; 11354413831; 57762449752; 55092511515; 13218541189; 43268277958;
  38664373226; 61556599375; 19778813971; 63255740682; 44863354988; 68086817055; 55806418864; 64368897782; 9599843603; 15107644877;
  6022850195; 1871626375; 44344151988; 31937250072; 61585017727; 21981102778; 48294092834; 41373324794; 31053924279; 25334860590;
  35838955104; 53932851613; 10769102398; 26975157911; 11062690565; 27719899328; 11275830009; 51348676278; 1482093497; 26650684096;
  902542910; 844368938; 47032366560; 32253117087; 49602446475; 63281570717; 38753643145; 13167865956; 49227436427; 54141816369;
  68457730961; 37152070047; 48143513550; 42782140516; 43547975919; 45878884268; 53508504665; 42000654793; 15516203647; 11259476518;
  438647964; 7845515639; 34192806621; 23741527517; 45050847612; 59520496387; 29101213626; 35493595975; 19004533161; 21118426144;
  67506609316; 41725025627; 64966732055; 62010514771; 15298058892; 56894344068; 50059747006; 8323000919; 57508177167; 26960217773;
  52675381197; 59969553512; 13144388441; 49644875655; 36712895285; 29158242478; 21703749306; 1762617354; 46187782928; 61744146697;
  64199167678; 16024565130; 17345853748; 31397792764; 27088311617; 10498110150; 49970912990; 32256378273; 26292473970; 37603880000;
  14010181886; 40890102339; 40997428482; 29288162972; 61871482536; 15833084627; 37295214857; 3772218856; 59251491670; 28931362288;
  32169212410; 4840050878; 28040500298; 23086225393; 41190335617; 51379435729; 20386205310; 56889598107; 13398592627; 13592205403;
  39481398977; 55569244124; 10545343678; 64066314186; 53998807114; 30181910309; 13680519019; 60180594311; 38968786961; 11467153918;
  47320625424; 19138161517; 46383460888; 1282127242; 3598155132; 29897033747; 7933162735; 58478055732; 21459775336; 10840003880;
  21162807885; 34058506995; 4070022808; 14538631611; 1667173899; 29247840345; 43498366897; 26051616077; 12253443581; 1968412300;
  35511625731; 47735950530; 50369390872; 46721952243; 33397661340; 39183418100; 12905911498; 37642413525; 28391188258; 37500811650;
  49643576538; 58604597232; 55715603530; 34721356800; 26909399488; 25249940393; 9840389654; 20310768016; 53876765535; 37342068920;
  67551568167; 32140354846; 26596221788; 32487680214; 693318853; 13128521345; 33492550712; 7711715506; 63191148009; 51348089976;
  9947808882; 62571542276; 41578300252; 50072107741; 2850269389; 28805413760; 19299086885; 19643871419; 23819604077; 22195059470;
  21989965492; 62861725974; 10605776636; 51560002518; 56758979028; 37926922274; 13006910258; 47179162689; 3449795799; 23667281765;
  54437706187; 8563154208; 64006223669; 44870678415; 50182445618; 3050695091; 18280274397; 58173938428; 34969006934; 38128609961;
  9943664142; 18346022042; 6610861094; 47884823908; 54195151054; 46704106925; 5989867850; 947297045; 51568249128; 5665214799;
  22702035930; 23965031463; 46064915679; 53985746343; 52421834121; 12505493123; 63008015173; 5732808215; 40901670031; 62101744547;
  41177610254; 33162533583; 29074441631; 40546474490; 25675517936; 45017128359; 34526314808; 48568358499; 28798609594; 44343203198;
  37131372443; 227868508; 41725587336; 57918653038; 3887912584; 9502771360; 36276856921; 47513525828; 5825355536; 34391805853;
  50708258496; 6406744203; 20317130173; 35759159217; 29894754202; 9619482725; 28155992007; 67569960528; 44043325106; 3415706223;
  13076427560; 6025457414; 60363409381; 575037110; 48721710892; 428676403; 29546295230; 43929664288; 19360802825; 52020782832;
  46439789387; 59850661184; 6619762449; 28090038495; 21356628634; 18003665315; 22505777682; 21983122644; 65177016724; 57300124470;
  17665907795; 13134075018; 38788530765; 29591835003; 19073189501; 31100854104; 30214479409; 35401974504; 48072943803; 57635049537;
  62851669264; 38471729840; 47960903995; 65261484774; 22989559141; 23569224259; 62014173381; 64576077781; 14936784503].
Definition tagCodes36h9 : family := make_family 36 9 t36h9.
