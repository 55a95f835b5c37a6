-Q theories Verif
theories/Base.v
theories/ModelField.v
theories/ModelUtils.v
theories/ModelPss.v
theories/ModelGao.v
theories/ModelPack.v
theories/ModelFft.v
theories/ModelNet.v
theories/Spec.v
theories/SpecNet.v
theories/SpecView.v
theories/NetProofs.v
theories/KingProofs.v
theories/KingFail.v
theories/CrashProofs.v
theories/RoundProofs.v
theories/LogProofs.v
theories/NetThm.v
theories/PropertiesNet.v
theories/ExamplesNet.v
theories/RingTac.v
theories/FieldProofs.v
theories/UtilsProofs.v
theories/PssProofs.v
theories/ExampleField.v
theories/PssThm.v
theories/PropertiesPss.v
theories/ExamplesPss.v
theories/UtilsThm.v
theories/PropertiesUtils.v
theories/PackProofs.v
theories/PackThm.v
theories/PropertiesPack.v
theories/ExamplesUtils.v
theories/GaoProofs.v
theories/GaoThm.v
theories/PropertiesGao.v
theories/ExamplesGao.v
theories/FftProofs.v
theories/ModelProto.v
theories/ModelQap.v
theories/ModelProve.v
theories/ModelMain.v
theories/SpecProto.v
theories/ProtoProofs.v
theories/DegProofs.v
theories/PpProofs.v
theories/FewProofs.v
theories/ProtoThm.v
theories/FewThm.v
theories/PropertiesProto.v
theories/MaskProofs.v
theories/HideThm.v
theories/PropertiesHide.v
theories/SpecGroth.v
theories/SpecVerify.v
theories/QapProofs.v
theories/PartyProofs.v
theories/ExtProofs.v
theories/GrothThm.v
theories/PropertiesGroth.v
theories/ProveProofs.v
theories/ProveThm.v
theories/MainProofs.v
theories/MainThm.v
theories/PropertiesMain.v
theories/ViewProofs.v
theories/ViewThm.v
theories/PropertiesView.v
theories/PropertiesProve.v
theories/ExamplesGroth.v
theories/PropertiesFew.v
theories/ExamplesProto.v
theories/ExamplesFew.v
theories/ExamplesMain.v
theories/ExamplesView.v
theories/SpecKing.v
theories/KingViewProofs.v
theories/KingViewThm.v
theories/PropertiesKingView.v
theories/ExamplesKingView.v
theories/SpecExt.v
theories/ExtViewThm.v
theories/PropertiesExtView.v
theories/ExamplesExtView.v
theories/MainViewThm.v
theories/PropertiesMainView.v
theories/ExamplesMainView.v
theories/ModelDemo.v
theories/DemoThm.v
theories/PropertiesDemo.v
theories/AddThm.v
theories/PropertiesAdd.v
theories/LocalThm.v
theories/PropertiesLocal.v
theories/BenchThm.v
theories/PropertiesBench.v
theories/ExamplesDemo.v
theories/PpViewThm.v
theories/PropertiesPpView.v
theories/ModelTests.v
theories/TestsThm.v
theories/PropertiesTests.v
theories/RefThm.v
theories/PropertiesRef.v
theories/ExamplesTests.v
theories/ModelUnit.v
theories/UnitThm.v
theories/PropertiesUnit.v
theories/ExamplesUnit.v
theories/PpFactorThm.v
theories/PropertiesPpFactor.v
theories/ExamplesFactor.v
theories/FftThm.v
theories/PropertiesFft.v
theories/ExamplesFft.v
theories/ModelWire.v
theories/ModelSetup.v
theories/SpecWire.v
theories/WireProofs.v
theories/SetupProofs.v
theories/MeshProofs.v
theories/GenesisProofs.v
theories/WireThm.v
theories/SetupThm.v
theories/PropertiesWire.v
theories/PropertiesSetup.v
theories/ExamplesWire.v
theories/ModelMux.v
theories/MuxThm.v
theories/PropertiesMux.v
theories/ExamplesMux.v
theories/SpecTamper.v
theories/TamperProofs.v
theories/TamperFft.v
theories/TamperThm.v
theories/PropertiesTamper.v
theories/ExamplesTamper.v
theories/SpecBytes.v
theories/BytesProofs.v
theories/BytesFft.v
theories/BytesThm.v
theories/PropertiesBytes.v
theories/ExamplesBytes.v
theories/MixProofs.v
theories/MixThm.v
theories/PropertiesMix.v
theories/ExamplesMix.v
theories/ModelMsmBench.v
theories/MsmBenchThm.v
theories/PropertiesMsmBench.v
theories/ExamplesMsmBench.v
theories/TamperPp.v
theories/PpBytes.v
theories/PpTamperThm.v
theories/PropertiesPpTamper.v
theories/ExamplesPpTamper.v
theories/ProveTamperThm.v
theories/PropertiesProveTamper.v
theories/ExamplesProveTamper.v
theories/SpecExtTamper.v
theories/ExtTamperThm.v
theories/PropertiesExtTamper.v
theories/ExamplesExtTamper.v
theories/JoinProofs.v
theories/SpecExtCaught.v
theories/ExtCaughtThm.v
theories/PropertiesExtCaught.v
theories/ExamplesExtCaught.v
theories/ModelProdNet.v
theories/SpecProdNet.v
theories/ProdNetProofs.v
theories/ProdNetThm.v
theories/PropertiesProdNet.v
theories/ExamplesProdNet.v
