-Q theories Verif
theories/AbeModel.v
theories/AbeProps.v
theories/AlmLemmas.v
theories/AlmModel.v
theories/AlmProps.v
theories/AlmSpec.v
theories/AopModel.v
theories/AopProps.v
theories/AopSpec.v
theories/ApdModel.v
theories/ApdProps.v
theories/ApdSpec.v
theories/ArrLemmas.v
theories/ArrModel.v
theories/Base.v
theories/BchModel.v
theories/BchProps.v
theories/BchSpec.v
theories/BeaModel.v
theories/BeaProps.v
theories/BeaSpec.v
theories/BinLemmas.v
theories/BinModel.v
theories/BinProps.v
theories/BinSpec.v
theories/BldLemmas.v
theories/BldModel.v
theories/BldProps.v
theories/BldSpec.v
theories/BlockLemmas.v
theories/BlockModel.v
theories/BlockProps.v
theories/BlockSpec.v
theories/BmfModel.v
theories/BmfProps.v
theories/BmfSpec.v
theories/BrcModel.v
theories/BrcProps.v
theories/BrcSpec.v
theories/BtaModel.v
theories/BtaProps.v
theories/BtaSpec.v
theories/BunLemmas.v
theories/BunModel.v
theories/BunProps.v
theories/BunSpec.v
theories/BxsModel.v
theories/BxsProps.v
theories/BxsSpec.v
theories/CatLemmas.v
theories/CatModel.v
theories/CatProps.v
theories/CatSpec.v
theories/CcoModel.v
theories/CcoProps.v
theories/CgLemmas.v
theories/CgLemmas2.v
theories/CgModel.v
theories/CgProps.v
theories/CgProps2.v
theories/CgSpec.v
theories/CgdModel.v
theories/CgdProps.v
theories/CgdSpec.v
theories/ClzModel.v
theories/ClzProps.v
theories/ClzSpec.v
theories/CndModel.v
theories/CndProps.v
theories/CndSpec.v
theories/CrgModel.v
theories/CrgProps.v
theories/CrgSpec.v
theories/CscModel.v
theories/CscProps.v
theories/CscSpec.v
theories/CsnModel.v
theories/CsnProps.v
theories/CsnSpec.v
theories/CvbProps.v
theories/DctLemmas.v
theories/DctLemmas2.v
theories/DctLemmas3.v
theories/DctModel.v
theories/DctProps.v
theories/DctSpec.v
theories/DicModel.v
theories/DicProps.v
theories/DicSpec.v
theories/DistHeap.v
theories/DistLemmas.v
theories/DistModel.v
theories/DistProps.v
theories/DistRun.v
theories/DistSpec.v
theories/DownLemmas.v
theories/DownModel.v
theories/DownProps.v
theories/DownSpec.v
theories/DslModel.v
theories/DslProps.v
theories/DslSpec.v
theories/EdgModel.v
theories/EdgProps.v
theories/EdgSpec.v
theories/EigModel.v
theories/EigProps.v
theories/EigSpec.v
theories/EisModel.v
theories/EisProps.v
theories/EisSpec.v
theories/FftLemmas.v
theories/FftLemmas2.v
theories/FftLemmas3.v
theories/FftLemmas4.v
theories/FftLemmas5.v
theories/FftModel.v
theories/FftProps.v
theories/FftProps2.v
theories/FftProps3.v
theories/FftSpec.v
theories/FindLemmas.v
theories/FindModel.v
theories/FindProps.v
theories/FindSpec.v
theories/FltLemmas.v
theories/FltLemmas2.v
theories/FltLemmas3.v
theories/FltLemmas4.v
theories/FltModel.v
theories/FltProps.v
theories/FltProps2.v
theories/FltProps3.v
theories/FltSpec.v
theories/FresLemmas.v
theories/FresModel.v
theories/FresProps.v
theories/FresSpec.v
theories/FswModel.v
theories/FswProps.v
theories/FswSpec.v
theories/GeoLemmas.v
theories/GeoLemmas2.v
theories/GeoModel.v
theories/GeoProps.v
theories/GeoSpec.v
theories/GrdLemmas.v
theories/GrdLemmas2.v
theories/GrdModel.v
theories/GrdProps.v
theories/GrdSpec.v
theories/HdfModel.v
theories/HdfProps.v
theories/HdfSpec.v
theories/HpLemmas.v
theories/HpModel.v
theories/HpProps.v
theories/HpSpec.v
theories/HpxModel.v
theories/HpxProps.v
theories/HpxSpec.v
theories/IplLemmas.v
theories/IplLemmas2.v
theories/IplLemmas3.v
theories/IplLemmas4.v
theories/IplLemmas5.v
theories/IplLemmas6.v
theories/IplLemmas7.v
theories/IplLemmas8.v
theories/IplLemmas9.v
theories/IplModel.v
theories/IplProps.v
theories/IplSpec.v
theories/IterLemmas.v
theories/IterModel.v
theories/IterProps.v
theories/IterSpec.v
theories/KapModel.v
theories/KapProps.v
theories/LabLemmas.v
theories/LabModel.v
theories/LabProps.v
theories/LabSpec.v
theories/LenLemmas.v
theories/LenLemmas2.v
theories/LenModel.v
theories/LenProps.v
theories/LenSpec.v
theories/MemLemmas.v
theories/MemModel.v
theories/MemProps.v
theories/MemSpec.v
theories/MfiLemmas.v
theories/MfiLemmas2.v
theories/MfiLemmas3.v
theories/MfiLemmas4.v
theories/MfiModel.v
theories/MfiProps.v
theories/MfiSpec.v
theories/MiscLemmas.v
theories/MiscModel.v
theories/MiscProps.v
theories/MiscSpec.v
theories/MskLemmas.v
theories/MskModel.v
theories/MskProps.v
theories/MskSpec.v
theories/MspModel.v
theories/MspProps.v
theories/MspSpec.v
theories/NbhModel.v
theories/NbhProps.v
theories/NbhSpec.v
theories/NdLemmas.v
theories/NdModel.v
theories/NdProps.v
theories/NdSpec.v
theories/NdfModel.v
theories/NdfProps.v
theories/NdfSpec.v
theories/NufLemmas.v
theories/NufLemmas0.v
theories/NufLemmas2.v
theories/NufLemmas3.v
theories/NufModel.v
theories/NufProps.v
theories/NufSpec.v
theories/PadtLemmas.v
theories/PadtModel.v
theories/PadtProps.v
theories/PgeModel.v
theories/PgeProps.v
theories/PgeSpec.v
theories/PixLemmas.v
theories/PixLemmas2.v
theories/PixLemmas3.v
theories/PixModel.v
theories/PixProps.v
theories/PixSpec.v
theories/PolyLemmas.v
theories/PolyModel.v
theories/PolyProps.v
theories/PolySpec.v
theories/PosLemmas.v
theories/PosModel.v
theories/PosProps.v
theories/PosProps2.v
theories/PosProps3.v
theories/PosSpec.v
theories/PrmModel.v
theories/PrmProps.v
theories/PrnModel.v
theories/PrnProps.v
theories/PrnSpec.v
theories/ProxLemmas.v
theories/ProxModel.v
theories/ProxProps.v
theories/ProxSpec.v
theories/QtlLemmas.v
theories/QtlModel.v
theories/QtlProps.v
theories/QtlSpec.v
theories/RangeLemmas.v
theories/RangeModel.v
theories/RangeProps.v
theories/RangeSpec.v
theories/RbnLemmas.v
theories/RbnModel.v
theories/RbnProps.v
theories/RbnSpec.v
theories/RdsLemmas.v
theories/RdsModel.v
theories/RdsProps.v
theories/RdsSpec.v
theories/RgbModel.v
theories/RgbProps.v
theories/RgbSpec.v
theories/RnsModel.v
theories/RnsProps.v
theories/RnsSpec.v
theories/RotLemmas.v
theories/RotModel.v
theories/RotProps.v
theories/RotSpec.v
theories/RsaModel.v
theories/RsaProps.v
theories/RsaSpec.v
theories/RsmLemmas.v
theories/RsmModel.v
theories/RsmProps.v
theories/RsmProps2.v
theories/RsmSpec.v
theories/SboxLemmas.v
theories/SboxModel.v
theories/SboxProps.v
theories/SboxSpec.v
theories/ShtLemmas.v
theories/ShtModel.v
theories/ShtProps.v
theories/ShtSpec.v
theories/SkyrLemmas.v
theories/SkyrModel.v
theories/SkyrProps.v
theories/SkyrSpec.v
theories/SliceLemmas.v
theories/SliceModel.v
theories/SliceProps.v
theories/SliceSpec.v
theories/SpinLemmas.v
theories/SpinModel.v
theories/SpinProps.v
theories/SpinSpec.v
theories/SplitLemmas.v
theories/SplitModel.v
theories/SplitProps.v
theories/SplitSpec.v
theories/SrcLemmas.v
theories/SrcModel.v
theories/SrcProps.v
theories/SrcSpec.v
theories/SslModel.v
theories/SslProps.v
theories/SslSpec.v
theories/StrLemmas.v
theories/StrModel.v
theories/StrProps.v
theories/StrSpec.v
theories/SymLemmas.v
theories/SymModel.v
theories/SymProps.v
theories/SymSpec.v
theories/TilLemmas.v
theories/TilModel.v
theories/TilProps.v
theories/TilSpec.v
theories/TlmModel.v
theories/TlmProps.v
theories/TlmSpec.v
theories/TrfLemmas.v
theories/TrfLemmas2.v
theories/TrfLemmas3.v
theories/TrfLemmas4.v
theories/TrfLemmas5.v
theories/TrfLemmas6.v
theories/TrfModel.v
theories/TrfProps.v
theories/TrfProps2.v
theories/TrfSpec.v
theories/TriModel.v
theories/TriProps.v
theories/TriSpec.v
theories/WavLemmas.v
theories/WavModel.v
theories/WavProps.v
theories/WavSpec.v
theories/WcshLemmas.v
theories/WcshModel.v
theories/WcshProps.v
theories/WcshSpec.v
theories/WflLemmas.v
theories/WflLemmas2.v
theories/WflLemmas3.v
theories/WflLemmas4.v
theories/WflLemmas5.v
theories/WflLemmas6.v
theories/WflModel.v
theories/WflProps.v
theories/WflProps2.v
theories/WflSpec.v
theories/WindLemmas.v
theories/WindModel.v
theories/WindProps.v
theories/WindSpec.v
theories/WvfLemmas.v
theories/WvfModel.v
theories/WvfProps.v
theories/XmaLemmas.v
theories/XmaModel.v
theories/XmaProps.v
theories/XmaSpec.v
theories/XmtModel.v
theories/XmtProps.v
theories/XmtSpec.v
