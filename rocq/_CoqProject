-Q theories Verif

theories/Base.v
theories/BaseProofs.v
theories/ExprsSpec.v
theories/ExprsModel.v
theories/ExprsProofs.v
theories/ExprsProps.v
theories/ConicModel.v
theories/ConicSpec.v
theories/ConicProofs.v
theories/ConicProofs2.v
theories/ConicProofs3.v
theories/ConicProofs4.v
theories/ConicProofs5.v
theories/ConicProofs6.v
theories/ConicProps.v
theories/OptVarModel.v
theories/OptVarSpec.v
theories/OptVarProofs.v
theories/OptVarProofs2.v
theories/OptVarProps.v
theories/EqModel.v
theories/EqSpec.v
theories/EqProofs.v
theories/EqProps.v
theories/ConeModel.v
theories/ConeSpec.v
theories/ConeProofs.v
theories/ConeProofs2.v
theories/ConeProofs3.v
theories/ConeProps.v
theories/LdlModel.v
theories/LdlSpec.v
theories/LdlProofs.v
theories/LdlProofs2.v
theories/LdlProofs3.v
theories/LdlProps.v
theories/LinModel.v
theories/LinSpec.v
theories/LinProofs.v
theories/LinProofs2.v
theories/LinProofs3.v
theories/LinProofs4.v
theories/LinProofs5.v
theories/LinProofs6.v
theories/LinProofs7.v
theories/LinProps.v
theories/IpModel.v
theories/IpSpec.v
theories/IpProofs.v
theories/IpProofs2.v
theories/IpProofs3.v
theories/IpProofs4.v
theories/IpProps.v
theories/IpBestSpec.v
theories/IpBestProps.v
theories/BnbModel.v
theories/BnbSpec.v
theories/BnbProofs.v
theories/BnbProofs2.v
theories/BnbProofs3.v
theories/BnbProofs4.v
theories/BnbProofs5.v
theories/BnbProps.v
theories/LbfgsModel.v
theories/LbfgsSpec.v
theories/LbfgsProofs.v
theories/LbfgsProofs2.v
theories/LbfgsProofs3.v
theories/LbfgsProofs4.v
theories/LbfgsProofs5.v
theories/LbfgsProps.v
theories/LbfgsProofs6.v
theories/LbfgsProps2.v
theories/LqrModel.v
theories/LqrSpec.v
theories/LqrProofs.v
theories/LqrProofs2.v
theories/LqrProofs3.v
theories/LqrProofs4.v
theories/LqrProofs5.v
theories/LqrProofs6.v
theories/LqrProofs7.v
theories/LqrProps.v
theories/LqrProps2.v
theories/HqpModel.v
theories/HqpSpec.v
theories/HqpProofs.v
theories/HqpProps.v
theories/RtMatModel.v
theories/RtMatProofs.v
theories/RtMatProps.v
theories/HierModel.v
theories/HierSpec.v
theories/HierProofs.v
theories/HierProofs2.v
theories/HierProofs3.v
theories/HierProps.v
theories/RtmModel.v
theories/RtmSpec.v
theories/RtmProofs.v
theories/RtmProps.v
theories/QpModel.v
theories/QpSpec.v
theories/QpProofs.v
theories/QpProofs2.v
theories/QpProofs3.v
theories/QpProofs4.v
theories/QpProofs5.v
theories/QpExamples.v
theories/QpExamples2.v
theories/QpProps.v
theories/Vec3.v
theories/CntModel.v
theories/CntSpec.v
theories/CntProofs.v
theories/CntProps.v
theories/TrajModel.v
theories/TrajSpec.v
theories/Hermite.v
theories/TrajProofs.v
theories/TrajProps.v
theories/PolyModel.v
theories/PolySpec.v
theories/PolyProofs.v
theories/PolyProps.v
theories/TerrModel.v
theories/TerrSpec.v
theories/TerrProofs.v
theories/TerrProps.v
theories/OriModel.v
theories/OriSpec.v
theories/OriProofs.v
theories/OriProofs2.v
theories/OriProps.v
theories/DynModel.v
theories/DynSpec.v
theories/DynProofs.v
theories/DynProofs2.v
theories/DynProofs3.v
theories/DynProofs4.v
theories/DynProps.v
theories/DynStoreSpec.v
theories/DynStoreProofs.v
theories/DynStoreProps.v
theories/DynTimeProps.v
theories/FbModel.v
theories/FbProps.v
theories/CplModel.v
theories/CplSpec.v
theories/CplProps.v
theories/PyqpModel.v
theories/PyqpSpec.v
theories/PyqpProps.v
theories/IkModel.v
theories/IkSpec.v
theories/IkProofs.v
theories/IkProps.v
theories/StgTables.v
theories/StgModel.v
theories/StgSpec.v
theories/StgProps.v
theories/StgPlanProofs.v
theories/StgPlanProps.v
theories/InsModel.v
theories/InsSpec.v
theories/InsProps.v
theories/LstModel.v
theories/LstSpec.v
theories/LstProps.v
theories/OcpModel.v
theories/OcpProps.v
theories/RtqModel.v
theories/RtqSpec.v
theories/RtqProps.v
theories/KinModel.v
theories/KinSpec.v
theories/KinProofs.v
theories/KinProofs2.v
theories/KinProofs3.v
theories/KinProofs4.v
theories/KinProofs5.v
theories/KinProps.v
theories/FlightModel.v
theories/FlightSpec.v
theories/FlightProofs.v
theories/FlightProofs2.v
theories/FlightProofs3.v
theories/FlightProps.v
theories/QuadMin.v
theories/MkoModel.v
theories/MkoSpec.v
theories/MkoProofs.v
theories/MkoProofs2.v
theories/MkoProps.v
theories/SoModel.v
theories/SoSpec.v
theories/SoProofs.v
theories/SoProofs2.v
theories/SoPinv.v
theories/SoProofs3.v
theories/SoProps.v
theories/ScpModel.v
theories/ScpSpec.v
theories/ScpProofs.v
theories/ScpProps.v
theories/DynCostSpec.v
theories/DynCostProofs.v
theories/DynCostProofs2.v
theories/DynCostProofs3.v
theories/DynCostProps.v
theories/ScpPlanProps.v
theories/NcvxModel.v
theories/NcvxSpec.v
theories/NcvxProofs.v
theories/NcvxProofs2.v
theories/NcvxProps.v
theories/ItpModel.v
theories/ItpSpec.v
theories/ItpProofs.v
theories/ItpProofs2.v
theories/ItpProps.v
theories/DatModel.v
theories/DatSpec.v
theories/DatProofs.v
theories/DatProps.v
theories/RicModel.v
theories/RicSpec.v
theories/RicProofs.v
theories/RicProofs2.v
theories/RicProps.v
theories/RicLinProps.v
theories/RicLinProps2.v
theories/ManModel.v
theories/ManSpec.v
theories/ManOriProps.v
theories/ManDynProps.v
theories/ManGainProps.v
theories/ManCostProps.v
theories/PlnModel.v
theories/PlnSpec.v
theories/PlnProps.v
theories/PlnRunProps.v
theories/RbsModel.v
theories/RbsSpec.v
theories/RbsProps.v
theories/PkiModel.v
theories/PkiProps.v
theories/SimModel.v
theories/SimSpec.v
theories/SimProps.v
theories/RbwModel.v
theories/RbwProps.v
theories/PydModel.v
theories/PydProps.v
theories/PycModel.v
theories/PycSpec.v
theories/PycProps.v
theories/MsgModel.v
theories/MsgProps.v
theories/UtlModel.v
theories/UtlProps.v
